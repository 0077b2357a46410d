(** Invariant of programs with arrays and transients under garbage collection. *)
From Coq Require Import List NArith Arith Bool Lia ZifyN ZifyNat ZifyBool.
From Verif Require Import Common NList RrbSpec Array ArraySpec ArrayProofs GcArray GcArraySpec.
Import ListNotations.
Local Open Scope N_scope.
Set Default Goal Selector "!".

Section Proofs.
Context {T : Type}.
Variable trivial : bool.
Variables esz off nodesz limit : N.
Variable teq : T -> T -> bool.
Hypothesis Hesz : 0 < esz.
Hypothesis Hoff : 0 < off.
Hypothesis Hnode : off + esz <= nodesz.
Hypothesis Hnode2 : nodesz < 2^63.
Hypothesis Hlim : limit < 2^63.

Notation gmem := (gmem T).
Notation gvals := (gvals T).
Notation gval := (gval T).
Notation good := (good trivial).
Notation cap_ok := (cap_ok esz off limit).
Notation no_wrap := (no_wrap esz off).
Notation gmake := (gmake esz off nodesz limit).
Notation gfill := (gfill trivial esz off nodesz limit).
Notation gcopy := (gcopy trivial esz off nodesz limit).
Notation gstep := (gstep trivial esz off nodesz limit teq).

Let room_ge' := room_ge esz off nodesz limit Hesz Hoff Hnode Hnode2 Hlim.
Let fits' := fits_cap esz off nodesz limit Hesz Hoff Hnode Hnode2 Hlim.
Let up' := recommend_up_ok esz off nodesz limit Hesz Hoff Hnode Hnode2 Hlim.
Let down' := recommend_down_ok esz off nodesz limit Hesz Hoff Hnode Hnode2 Hlim.
Let cap_wrap' := cap_no_wrap esz off limit Hlim.
Let small' := cap_small esz off nodesz limit Hesz Hoff Hnode Hnode2 Hlim.
Let fill' := construct_all_good (T := T) trivial esz off nodesz limit Hesz Hoff Hnode Hnode2 Hlim.
Let cons' := construct_good (T := T) trivial esz off nodesz limit Hesz Hoff Hnode Hnode2 Hlim.

(** ** Lists of blocks *)
Definition holds (m : gmem) (h : handle) (xs : list T) : Prop :=
  exists b, nth_error (blocks m) (ptr h) = Some b /\ hsize h = lenN xs /\
            good (cells b) xs /\ hcap h <= lenN (cells b) /\ hsize h <= hcap h /\
            cap_ok (hcap h).
Definition rel (m : gmem) (v : gvar) (x : gval) : Prop :=
  match v, x with
  | Arr p s, VArr xs => holds m (mkHandle p s s) xs
  | Tra h e, VTra xs => holds m h xs /\ (0 < e < next_tok m)%nat
  | Tra _ _, VMoved => True
  | Gone, VGone => True
  | _, _ => False
  end.

Definition live (x : gval) : Prop :=
  match x with VArr _ | VTra _ => True | _ => False end.
Definition ptr_of (v : gvar) : option addr :=
  match v with Arr p _ => Some p | Tra h _ => Some (ptr h) | Gone => None end.
Definition size_of (v : gvar) : N :=
  match v with Arr _ s => s | Tra h _ => hsize h | Gone => 0 end.
(** The variable may not write to its node. *)
Definition reads (m : gmem) (v : gvar) : Prop :=
  match v with
  | Tra h e => forall b, nth_error (blocks m) (ptr h) = Some b -> tok b <> e
  | _ => True
  end.
(** Two variables may share a node only if neither may write to it, and then they have the
    same size. *)
Definition apart (m : gmem) (v w : gvar) : Prop :=
  forall a, ptr_of v = Some a -> ptr_of w = Some a ->
    size_of v = size_of w /\ reads m v /\ reads m w.
Lemma apart_sym m v w : apart m v w -> apart m w v.
Proof. intros H a A B. destruct (H a B A) as (? & ? & ?). auto. Qed.

(** Whoever points to one of the two empty nodes has no elements. *)
Definition at_static (v : gvar) : Prop :=
  forall a, ptr_of v = Some a -> (a <= 1)%nat -> size_of v = 0.

Record inv (m : gmem) (l : list gvar) (vs : gvals) : Prop := mkInv
  { i_rel : Forall2 (rel m) l vs;
    i_apart : forall i j v w x y, i <> j -> nth_error l i = Some v -> nth_error l j = Some w ->
      nth_error vs i = Some x -> nth_error vs j = Some y -> live x -> live y -> apart m v w;
    i_tok : forall a b, nth_error (blocks m) a = Some b -> (tok b < next_tok m)%nat;
    i_some : (0 < next_tok m)%nat;
    i_st : forall a, (a <= 1)%nat -> exists b, nth_error (blocks m) a = Some b /\ tok b = O;
    i_nc : holds m (mkHandle O 0 0) [];
    i_wc2 : holds m wc_empty [];
    i_zero : forall i v x, nth_error l i = Some v -> nth_error vs i = Some x -> live x ->
      at_static v }.

(** Memory grows: old blocks stay as they are, tokens only get bigger. *)
Definition grows (m m' : gmem) : Prop :=
  (next_tok m <= next_tok m')%nat /\
  (forall a b, nth_error (blocks m) a = Some b -> nth_error (blocks m') a = Some b) /\
  (forall a b, nth_error (blocks m') a = Some b -> (tok b < next_tok m')%nat).
Lemma holds_grows m m' h xs : grows m m' -> holds m h xs -> holds m' h xs.
Proof. intros (_ & G & _) (b & H & R). exists b. auto. Qed.
Lemma rel_grows m m' v x : grows m m' -> rel m v x -> rel m' v x.
Proof.
  intros G. destruct v, x; cbn; auto.
  - now apply holds_grows.
  - intros [H E]. split; [now apply (holds_grows m)|]. destruct G as [G _]. lia.
Qed.
Lemma reads_grows m m' v x : grows m m' -> rel m v x -> live x -> reads m v -> reads m' v.
Proof.
  intros (_ & G & _) R L. destruct v as [|h e|], x; cbn in *; try easy.
  destruct R as [(b & Hb & _) _]. intros H b' Hb'. rewrite (G _ _ Hb) in Hb'.
  injection Hb' as <-. now apply H.
Qed.
Lemma rel_at m l vs i v x : inv m l vs -> nth_error l i = Some v -> nth_error vs i = Some x ->
  rel m v x.
Proof.
  intros I Hv Hx. destruct (F2_nth _ _ _ _ _ (i_rel _ _ _ I) Hv) as (x' & Hx' & R). congruence.
Qed.
Lemma apart_grows m m' v w x y : grows m m' -> rel m v x -> rel m w y -> live x -> live y ->
  apart m v w -> apart m' v w.
Proof.
  intros G Rv Rw Lx Ly H a A B. destruct (H a A B) as (E & Hv & Hw). repeat split; auto.
  - now apply (reads_grows m m' v x).
  - now apply (reads_grows m m' w y).
Qed.
Lemma inv_grows m m' l vs : grows m m' -> inv m l vs -> inv m' l vs.
Proof.
  intros G I. pose proof I as [R A K S W N W2 Z]. constructor.
  - eapply F2_impl_in; [|exact R]. intros v x _. now apply rel_grows.
  - intros i j v w x y Hij Hv Hw Hx Hy Lx Ly.
    apply (apart_grows m m' v w x y); auto.
    + exact (rel_at _ _ _ _ _ _ I Hv Hx).
    + exact (rel_at _ _ _ _ _ _ I Hw Hy).
    + exact (A i j v w x y Hij Hv Hw Hx Hy Lx Ly).
  - apply G.
  - destruct G as [G _]. lia.
  - intros a Ha. destruct (W a Ha) as (b & Hb & E). exists b. split; [|assumption]. now apply G.
  - now apply (holds_grows m).
  - now apply (holds_grows m).
  - exact Z.
Qed.

(** A variable is set. *)
Lemma inv_set m l vs i v x : inv m l vs -> (i < length l)%nat -> rel m v x ->
  (live x -> forall j w y, j <> i -> nth_error l j = Some w -> nth_error vs j = Some y ->
     live y -> apart m v w) ->
  (live x -> at_static v) ->
  inv m (update_at i v l) (update_at i x vs).
Proof.
  intros I Hi R H HZ. pose proof I as [F A K S W N W2 Z]. constructor; auto.
  1: now apply F2_update.
  all: cycle 1.
  { intros j w y. rewrite !nth_update. destruct (Nat.eqb_spec i j) as [<-|Hj].
    - destruct (nth_error l i); [|easy]. destruct (nth_error vs i); [|easy].
      intros E1 E2. injection E1 as <-. injection E2 as <-. exact HZ.
    - apply Z. }
  - pose proof (F2_length _ _ _ F) as HL.
    assert (HA : forall j w y, j <> i -> nth_error (update_at i v l) j = Some w ->
      nth_error (update_at i x vs) j = Some y ->
      nth_error l j = Some w /\ nth_error vs j = Some y).
    { intros j w y Hj. rewrite !nth_update. destruct (Nat.eqb_spec i j); [congruence|auto]. }
    assert (HB : nth_error (update_at i v l) i = Some v /\
                 nth_error (update_at i x vs) i = Some x).
    { rewrite !nth_update, Nat.eqb_refl.
      destruct (nth_error l i) eqn:E1; [|apply nth_error_None in E1; lia].
      destruct (nth_error vs i) eqn:E2; [|apply nth_error_None in E2; lia]. auto. }
    destruct HB as [HB1 HB2].
    intros j k w w' y y' Hjk Hw Hw' Hy Hy' Ly Ly'.
    destruct (Nat.eq_dec j i) as [->|Hj].
    + rewrite HB1 in Hw. rewrite HB2 in Hy. injection Hw as <-. injection Hy as <-.
      destruct (HA k w' y') as [E1 E2]; auto. exact (H Ly k w' y' (not_eq_sym Hjk) E1 E2 Ly').
    + destruct (HA j w y Hj Hw Hy) as [E1 E2]. destruct (Nat.eq_dec k i) as [->|Hk].
      * rewrite HB1 in Hw'. rewrite HB2 in Hy'. injection Hw' as <-. injection Hy' as <-.
        apply apart_sym. exact (H Ly' j w y Hj E1 E2 Ly).
      * destruct (HA k w' y' Hk Hw' Hy') as [E3 E4].
        exact (A j k w w' y y' Hjk E1 E3 E2 E4 Ly Ly').
Qed.
(** A variable is added. *)
Lemma inv_gone m l vs : inv m l vs -> inv m (l ++ [Gone]) (vs ++ [VGone]).
Proof.
  intros I. pose proof I as [F A K S W N W2 Z]. constructor; auto.
  - apply Forall2_app; [assumption|]. constructor; [exact Logic.I|constructor].
  - pose proof (F2_length _ _ _ F) as HL. intros i j v w x y Hij Hv Hw Hx Hy Lx Ly.
    destruct (Nat.lt_ge_cases i (length l)) as [Li|Li].
    + destruct (Nat.lt_ge_cases j (length l)) as [Lj|Lj].
      * rewrite nth_error_app1 in Hv, Hw, Hx, Hy by lia.
        exact (A i j v w x y Hij Hv Hw Hx Hy Lx Ly).
      * rewrite nth_error_app2 in Hy by lia.
        destruct (j - length vs)%nat as [|[|]]; cbn in Hy; try discriminate.
        injection Hy as <-. easy.
    + rewrite nth_error_app2 in Hx by lia.
      destruct (i - length vs)%nat as [|[|]]; cbn in Hx; try discriminate.
      injection Hx as <-. easy.
  - pose proof (F2_length _ _ _ F) as HL. intros i v x Hv Hx Lx.
    destruct (Nat.lt_ge_cases i (length l)) as [Li|Li].
    + rewrite nth_error_app1 in Hv, Hx by lia. exact (Z i v x Hv Hx Lx).
    + rewrite nth_error_app2 in Hx by lia.
      destruct (i - length vs)%nat as [|[|]]; cbn in Hx; try discriminate.
      injection Hx as <-. easy.
Qed.
Lemma update_end {A} (l : list A) x y : update_at (length l) x (l ++ [y]) = l ++ [x].
Proof. induction l; cbn; congruence. Qed.
Lemma inv_add m l vs v x : inv m l vs -> rel m v x ->
  (live x -> forall j w y, nth_error l j = Some w -> nth_error vs j = Some y -> live y ->
     apart m v w) ->
  (live x -> at_static v) ->
  inv m (l ++ [v]) (vs ++ [x]).
Proof.
  intros I R H HZ. pose proof (F2_length _ _ _ (i_rel _ _ _ I)) as HL.
  rewrite <- (update_end l v Gone), <- (update_end vs x VGone), <- HL.
  apply inv_set; [now apply inv_gone|rewrite app_length; cbn; lia|assumption| |exact HZ].
  intros Lx j w y Hj Hw Hy Ly. pose proof (nth_lt _ _ _ Hw) as Lt.
  rewrite app_length in Lt. cbn in Lt. rewrite nth_error_app1 in Hw, Hy by lia.
  exact (H Lx j w y Hw Hy Ly).
Qed.

Lemma F2_intro {A C} (R : A -> C -> Prop) l : forall m, length l = length m ->
  (forall j x y, nth_error l j = Some x -> nth_error m j = Some y -> R x y) -> Forall2 R l m.
Proof.
  induction l as [|a l IH]; intros [|b m] HL H; cbn in HL; try discriminate; constructor.
  - exact (H O a b eq_refl eq_refl).
  - apply IH; [lia|]. intros j. exact (H (S j)).
Qed.

(** New blocks. *)
Definition new_block (m m' : gmem) (q : addr) (e : nat) (sl : list (option T)) : Prop :=
  next_tok m' = next_tok m /\ q = length (blocks m) /\
  blocks m' = blocks m ++ [mkBlock e sl].
Lemma new_grows m m' q e sl l vs : inv m l vs -> (e < next_tok m)%nat ->
  new_block m m' q e sl -> grows m m'.
Proof.
  intros I He (E1 & -> & E3). unfold grows. rewrite E1, E3. split; [auto|]. split.
  - intros a b H. rewrite nth_error_app1; [assumption|now apply nth_lt in H].
  - intros a b H. destruct (Nat.lt_ge_cases a (length (blocks m))) as [L|L].
    + rewrite nth_error_app1 in H by assumption. exact (i_tok _ _ _ I _ _ H).
    + rewrite nth_error_app2 in H by assumption.
      destruct (a - length (blocks m))%nat as [|[|]]; cbn in H; try discriminate.
      injection H as <-. exact He.
Qed.
Lemma new_nth m m' q e sl : new_block m m' q e sl ->
  nth_error (blocks m') q = Some (mkBlock e sl).
Proof. intros (_ & -> & E). rewrite E, nth_error_app2, Nat.sub_diag by lia. reflexivity. Qed.
Lemma rel_old m l vs j w y a : inv m l vs -> nth_error l j = Some w ->
  nth_error vs j = Some y -> live y -> ptr_of w = Some a -> (a < length (blocks m))%nat.
Proof.
  intros I Hw Hy Ly E. pose proof (rel_at _ _ _ _ _ _ I Hw Hy) as R.
  destruct w, y; cbn in *; try easy; injection E as <-.
  - destruct R as (b & Hb & _). exact (nth_lt _ _ _ Hb).
  - destruct R as [(b & Hb & _) _]. exact (nth_lt _ _ _ Hb).
Qed.
Lemma new_apart m m' q e sl l vs v j w y : inv m l vs -> new_block m m' q e sl ->
  ptr_of v = Some q -> nth_error l j = Some w -> nth_error vs j = Some y -> live y ->
  apart m' v w.
Proof.
  intros I (_ & -> & _) E Hw Hy Ly a A B. rewrite E in A. injection A as <-.
  pose proof (rel_old _ _ _ _ _ _ _ I Hw Hy Ly B). lia.
Qed.
Lemma new_static m m' q e sl l vs v : inv m l vs -> new_block m m' q e sl ->
  ptr_of v = Some q -> at_static v.
Proof.
  intros I (_ & -> & _) E a A L. rewrite E in A. injection A as <-.
  destruct (i_st _ _ _ I 1 (le_n 1)) as (b & Hb & _). apply nth_lt in Hb. lia.
Qed.
Lemma holds_new m m' q e sl s c xs : new_block m m' q e sl -> good sl xs -> s = lenN xs ->
  s <= c -> c <= lenN sl -> cap_ok c -> holds m' (mkHandle q s c) xs.
Proof.
  intros B G -> H1 H2 H3. exists (mkBlock e sl). split; [exact (new_nth _ _ _ _ _ B)|]. cbn. auto.
Qed.

Lemma update_snoc {A} (l : list A) x y : update_at (length l) x (l ++ [y]) = l ++ [x].
Proof. apply update_end. Qed.
Lemma gfill_ok m e n xs : lenN xs <= n -> no_wrap n ->
  gfill m e n xs = Ok None \/
  exists m' q sl, gfill m e n xs = Ok (Some (q, m')) /\ new_block m m' q e sl /\
    good sl xs /\ n <= lenN sl /\ cap_ok n /\ ncopied m' = ncopied m + lenN xs.
Proof.
  intros Hx Hw. unfold GcArray.gfill, GcArray.gmake.
  destruct (N.ltb_spec limit (sizeof_n esz off nodesz n)) as [L|L]; cbn [rbind]; [now left|].
  right. unfold rblock, rnth. cbn [blocks]. rewrite nth_error_app2, Nat.sub_diag by lia.
  cbn [nth_error rbind cells].
  pose proof (room_ge' n Hw) as Hr.
  destruct (fill' xs (repeat None (N.to_nat (room esz off nodesz n))) [])
    as (sl & E & G & Ls).
  { apply good_fresh. }
  { rewrite lenN_repeat, lenN_nil. lia. }
  rewrite lenN_nil in E. rewrite E. cbn [rbind]. rewrite lenN_repeat in Ls.
  do 3 eexists. split; [reflexivity|]. unfold new_block. cbn [blocks next_tok ncopied tok].
  rewrite update_snoc. split; [auto|]. split; [exact G|]. split; [lia|].
  split; [|reflexivity]. now apply fits'.
Qed.
Lemma gcopy_ok m e n h xs k : holds m h xs -> k <= lenN xs -> k <= n -> no_wrap n ->
  gcopy m e n (ptr h) k = Ok None \/
  exists m' q sl, gcopy m e n (ptr h) k = Ok (Some (q, m')) /\ new_block m m' q e sl /\
    good sl (firstn (N.to_nat k) xs) /\ n <= lenN sl /\ cap_ok n /\
    ncopied m' = ncopied m + k.
Proof.
  intros (b & Hb & Hs & G & _) Hk Hn Hw. unfold GcArray.gcopy, rblock, rnth. rewrite Hb.
  cbn [rbind].
  rewrite (read_n_good trivial xs (cells b) (N.to_nat k) G) by (unfold lenN in Hk; lia).
  cbn [rbind].
  assert (E : lenN (firstn (N.to_nat k) xs) = k)
    by (unfold lenN in *; rewrite firstn_length; lia).
  destruct (gfill_ok m e n (firstn (N.to_nat k) xs)) as [?|(m' & q & sl & H)]; auto; [lia|].
  right. exists m', q, sl. rewrite E in H. exact H.
Qed.
Lemma firstn_lenN (xs : list T) : firstn (N.to_nat (lenN xs)) xs = xs.
Proof. unfold lenN. rewrite Nnat.Nat2N.id. apply firstn_all. Qed.

(** Writing to a block that was just made. *)
Lemma gwrite_new m m' q e sl sl' : new_block m m' q e sl ->
  exists m2, gwrite m' q sl' = Ok m2 /\ new_block m m2 q e sl' /\ ncopied m2 = ncopied m'.
Proof.
  intros B. pose proof (new_nth _ _ _ _ _ B) as H. unfold gwrite, rblock, rnth. rewrite H.
  cbn [rbind]. eexists. split; [reflexivity|]. destruct B as (E1 & -> & E3).
  unfold new_block. cbn. rewrite E3, update_snoc. auto.
Qed.
Lemma rblock_new m m' q e sl : new_block m m' q e sl -> rblock m' q = Ok (mkBlock e sl).
Proof. intros B. unfold rblock, rnth. now rewrite (new_nth _ _ _ _ _ B). Qed.

(** Writing to a block in place. *)
Lemma inv_write m l vs i h e xs b sl h' xs' : inv m l vs ->
  nth_error l i = Some (Tra h e) -> nth_error vs i = Some (VTra xs) ->
  nth_error (blocks m) (ptr h) = Some b -> tok b = e ->
  ptr h' = ptr h -> hsize h' = lenN xs' -> good sl xs' -> hcap h' <= lenN sl ->
  hsize h' <= hcap h' -> cap_ok (hcap h') ->
  exists m', gwrite m (ptr h) sl = Ok m' /\ ncopied m' = ncopied m /\
    inv m' (update_at i (Tra h' e) l) (update_at i (VTra xs') vs) /\
    gown m' (ptr h) e = Ok true.
Proof.
  intros I Hv Hx Hb He Hp Hs G Hc Hsc Hok. unfold gwrite, rblock, rnth. rewrite Hb. cbn [rbind].
  eexists. split; [reflexivity|]. split; [reflexivity|].
  set (m' := mkMem _ _ _). pose proof (rel_at _ _ _ _ _ _ I Hv Hx) as [HR HE].
  assert (HN : forall a, nth_error (blocks m') a =
    if Nat.eqb (ptr h) a then Some (mkBlock (tok b) sl) else nth_error (blocks m) a).
  { intros a. subst m'. cbn [blocks]. rewrite nth_update, Hb. reflexivity. }
  assert (HT : next_tok m' = next_tok m) by reflexivity.
  split; [|unfold gown, rblock, rnth; rewrite HN, Nat.eqb_refl; cbn; now rewrite He, Nat.eqb_refl].
  clearbody m'.
  pose proof I as [F A K S W N W2 Z].
  (* other live variables are elsewhere *)
  assert (HO : forall j w y, j <> i -> nth_error l j = Some w -> nth_error vs j = Some y ->
    live y -> ptr_of w <> Some (ptr h)).
  { intros j w y Hj Hw Hy Ly E.
    destruct (A i j (Tra h e) w (VTra xs) y (not_eq_sym Hj) Hv Hw Hx Hy Logic.I Ly (ptr h)
                eq_refl E) as (_ & HU & _).
    exact (HU b Hb He). }
  assert (HH : forall h0 ys, ptr h0 <> ptr h -> holds m h0 ys -> holds m' h0 ys).
  { intros h0 ys Hn (b0 & Hb0 & R0). exists b0. split; [|assumption]. rewrite HN.
    destruct (Nat.eqb_spec (ptr h) (ptr h0)); [congruence|assumption]. }
  assert (H1 : (1 < ptr h)%nat).
  { destruct (Nat.lt_ge_cases 1 (ptr h)) as [|L]; [assumption|].
    destruct (W _ L) as (b1 & Hb1 & T1). assert (b = b1) by congruence. subst b1. lia. }
  assert (HR2 : forall w y, rel m w y -> (live y -> ptr_of w <> Some (ptr h)) -> rel m' w y).
  { intros w y R Hn. destruct w, y; cbn in *; try easy.
    - apply HH; cbn; [|assumption]. specialize (Hn Logic.I). congruence.
    - destruct R as [R E]. split; [|now rewrite HT]. apply HH; [|assumption].
      specialize (Hn Logic.I). congruence. }
  assert (HU : forall w, reads m w -> reads m' w).
  { intros [|hw ew|]; cbn; auto. intros H b0. rewrite HN.
    destruct (Nat.eqb_spec (ptr h) (ptr hw)) as [E|E]; [|apply H].
    intros E0. injection E0 as <-. cbn. apply H. congruence. }
  constructor.
  - apply F2_intro.
    + rewrite !update_length. exact (F2_length _ _ _ F).
    + intros j w y. rewrite !nth_update. destruct (Nat.eqb_spec i j) as [<-|Hj].
      * rewrite Hv, Hx. intros E1 E2. injection E1 as <-. injection E2 as <-. cbn.
        split; [|now rewrite HT]. exists (mkBlock (tok b) sl). rewrite Hp, HN, Nat.eqb_refl. auto 8.
      * intros Hw Hy. apply HR2; [exact (rel_at _ _ _ _ _ _ I Hw Hy)|].
        intros Ly. exact (HO j w y (not_eq_sym Hj) Hw Hy Ly).
  - intros j k w w' y y' Hjk Hw Hw' Hy Hy' Ly Ly'.
    rewrite nth_update in Hw. rewrite nth_update in Hw'.
    rewrite nth_update in Hy. rewrite nth_update in Hy'.
    destruct (Nat.eqb_spec i j) as [<-|Hj].
    + rewrite Hv in Hw. injection Hw as <-. destruct (Nat.eqb_spec i k); [congruence|].
      intros a E1 E2. cbn in E1. injection E1 as <-. rewrite Hp in E2.
      destruct (HO k w' y' (not_eq_sym Hjk) Hw' Hy' Ly' E2).
    + destruct (Nat.eqb_spec i k) as [<-|Hk].
      * rewrite Hv in Hw'. injection Hw' as <-.
        intros a E1 E2. cbn in E2. injection E2 as <-. rewrite Hp in E1.
        destruct (HO j w y Hjk Hw Hy Ly E1).
      * intros a E1 E2. destruct (A j k w w' y y' Hjk Hw Hw' Hy Hy' Ly Ly' a E1 E2) as (? & ? & ?).
        auto.
  - intros a b0. rewrite HN, HT. destruct (Nat.eqb_spec (ptr h) a) as [<-|Ha]; [|apply K].
    intros E0. injection E0 as <-. cbn. exact (K _ _ Hb).
  - now rewrite HT.
  - intros a Ha. rewrite HN. destruct (Nat.eqb_spec (ptr h) a); [lia|]. now apply W.
  - apply HH; cbn; [lia|assumption].
  - apply HH; cbn; [lia|assumption].
  - intros j w y. rewrite !nth_update. destruct (Nat.eqb_spec i j) as [<-|Hj]; [|apply Z].
    rewrite Hv, Hx. intros E1 E2 _. injection E1 as <-. intros a E3 L3. cbn in E3.
    injection E3 as <-. lia.
Qed.

(** ** What an operation on the memory leaves *)
Lemma gown_ok m h xs e : holds m h xs ->
  exists b, nth_error (blocks m) (ptr h) = Some b /\ gown m (ptr h) e = Ok (Nat.eqb (tok b) e).
Proof. intros (b & Hb & _). exists b. unfold gown, rblock, rnth. rewrite Hb. auto. Qed.

(** A new array. *)
Definition makes (m : gmem) (r : res (option (addr * N * gmem))) (xs : list T) : Prop :=
  r = Ok None \/
  exists q m' sl, r = Ok (Some (q, lenN xs, m')) /\ new_block m m' q 0 sl /\ good sl xs /\
    lenN xs <= lenN sl /\ cap_ok (lenN xs).
Lemma nc_push_ok m p s xs x : holds m (mkHandle p s s) xs ->
  makes m (nc_push trivial esz off nodesz limit m p s x) (xs ++ [x]).
Proof.
  intros H. pose proof H as (b & Hb & Hs & G & Hc & _ & Ho). cbn in *. subst s.
  pose proof (small' _ Ho) as Hsm.
  assert (E1 : w64 (lenN xs + 1) = lenN xs + 1) by (apply w64_small; lia).
  unfold nc_push. rewrite E1.
  destruct (gcopy_ok m 0 (lenN xs + 1) (mkHandle p (lenN xs) (lenN xs)) xs (lenN xs) H)
    as [E|(m' & q & sl & E & B & G' & Hl & Hok & _)]; try lia.
  { destruct (up' (lenN xs + 1) (lenN xs) Ho) as (U1 & U2 & _ & U4); [lia|].
    unfold ArrayProofs.no_wrap in *.
    assert (esz * (lenN xs + 1) <= esz * recommend_up (lenN xs + 1) (lenN xs))
      by (apply N.mul_le_mono_l; lia). lia. }
  { cbn in E. rewrite E. now left. }
  cbn in E. rewrite E. cbn [rbind]. rewrite (rblock_new _ _ _ _ _ B). cbn [rbind cells].
  rewrite firstn_lenN in G'.
  destruct (cons' sl xs x G') as (sl2 & E2 & G2 & L2); [lia|].
  rewrite E2. cbn [rbind].
  destruct (gwrite_new _ _ _ _ _ sl2 B) as (m2 & E3 & B2 & _). rewrite E3. cbn [rbind].
  right. exists q, m2, sl2. rewrite lenN_app, lenN_cons, lenN_nil.
  replace (lenN xs + (0 + 1)) with (lenN xs + 1) by lia.
  repeat split; auto; try apply B2. lia.
Qed.
Lemma nth_in (xs : list T) k : k < lenN xs -> exists x, nth_error xs (N.to_nat k) = Some x.
Proof.
  unfold lenN. intros H. destruct (nth_error xs (N.to_nat k)) eqn:E; [eauto|].
  apply nth_error_None in E. lia.
Qed.
Lemma set_fun (xs : list T) k x f : nth_error xs k = Some x ->
  list_set xs k (fun _ => f x) = list_set xs k f.
Proof.
  intros H. apply nth_error_split in H as (a & b & -> & Hl). now rewrite !list_set_app.
Qed.
Lemma set_lenN (xs : list T) k f : lenN (list_set xs k f) = lenN xs.
Proof. 
  unfold lenN, list_set. f_equal. destruct (skipn k xs) as [|x r] eqn:E; [reflexivity|].
  rewrite <- (firstn_skipn k xs) at 2. rewrite E, !app_length. reflexivity.
Qed.
(** Reading an element of a node and writing it back. *)
Lemma edit_good sl xs k (f : T -> T) : good sl xs -> k < lenN xs ->
  exists x sl', read sl k = Ok x /\ assign sl k (f x) = Ok sl' /\
    good sl' (list_set xs (N.to_nat k) f) /\ lenN sl' = lenN sl.
Proof.
  intros G Hk. destruct (nth_in _ _ Hk) as (x & Hx). exists x.
  destruct (assign_good trivial sl xs k x (f x) G Hx) as (sl' & E & G' & L).
  exists sl'. rewrite (set_fun _ _ _ _ Hx) in G'.
  repeat split; auto. exact (read_good trivial sl xs k x G Hx).
Qed.
Lemma nc_update_ok m p s xs k f : holds m (mkHandle p s s) xs -> k < lenN xs ->
  makes m (nc_update trivial esz off nodesz limit m p s k f) (list_set xs (N.to_nat k) f).
Proof.
  intros H Hk. pose proof H as (b & Hb & Hs & G & Hc & _ & Ho). cbn in *. subst s.
  unfold nc_update.
  destruct (gcopy_ok m 0 (lenN xs) (mkHandle p (lenN xs) (lenN xs)) xs (lenN xs) H)
    as [E|(m' & q & sl & E & B & G' & Hl & Hok & _)]; try lia.
  { now apply cap_wrap'. }
  { cbn in E. rewrite E. now left. }
  cbn in E. rewrite E. cbn [rbind]. rewrite (rblock_new _ _ _ _ _ B). cbn [rbind cells].
  rewrite firstn_lenN in G'.
  destruct (edit_good sl xs k f G' Hk) as (x & sl2 & Er & E2 & G2 & L2).
  rewrite Er. cbn [rbind]. rewrite E2. cbn [rbind].
  destruct (gwrite_new _ _ _ _ _ sl2 B) as (m2 & E3 & B2 & _). rewrite E3. cbn [rbind].
  right. exists q, m2, sl2. rewrite set_lenN. repeat split; auto; try apply B2. lia.
Qed.
Lemma nc_copy_ok m h xs sz : holds m h xs -> sz <= lenN xs ->
  makes m (' (q, m1) <~ gcopy m 0 sz (ptr h) sz ;; Ok (Some (q, sz, m1)))
    (firstn (N.to_nat sz) xs).
Proof.
  intros H Hk. pose proof H as (b & Hb & Hs & G & Hc & Hsc & Ho).
  assert (Hl : lenN (firstn (N.to_nat sz) xs) = sz)
    by (unfold lenN in *; rewrite firstn_length; lia).
  destruct (gcopy_ok m 0 sz h xs sz H)
    as [E|(m' & q & sl & E & B & G' & Hl' & Hok & _)]; try lia.
  { apply cap_wrap' in Ho. unfold ArrayProofs.no_wrap in *.
    assert (esz * sz <= esz * hcap h) by (apply N.mul_le_mono_l; lia). lia. }
  { rewrite E. now left. }
  rewrite E. cbn [rbind]. right. exists q, m', sl. rewrite Hl. auto.
Qed.
Lemma gfill_makes m n xs : lenN xs = n -> no_wrap n ->
  makes m (' (q, m1) <~ gfill m 0 n xs ;; Ok (Some (q, n, m1))) xs.
Proof.
  intros E1 Hw. destruct (gfill_ok m 0 n xs) as [E|(m' & q & sl & E & B & G & L & C & _)];
    try lia; auto.
  { rewrite E. now left. }
  rewrite E. cbn [rbind]. right. exists q, m', sl. rewrite E1. auto.
Qed.
Lemma makes_add m l vs r xs : inv m l vs -> makes m r xs ->
  exists m' v' o, add_arr (mkG m l) r = Ok (mkG m' v', o) /\
    ((o = Threw /\ inv m' v' vs) \/ (o = Done /\ inv m' v' (vs ++ [VArr xs]))).
Proof.
  intros I [->|(q & m' & sl & -> & B & G & L & C)].
  - exists m, l, Threw. split; [reflexivity|]. now left.
  - exists m', (l ++ [Arr q (lenN xs)]), Done. split; [reflexivity|]. right. split; [reflexivity|].
    assert (GR : grows m m').
    { apply (new_grows _ _ _ _ _ _ _ I (i_some _ _ _ I) B). }
    apply inv_add; [now apply (inv_grows m)| | |].
    + cbn. apply (holds_new _ _ _ _ _ _ _ _ B G); auto. lia.
    + intros _ j w y Hw Hy Ly.
      exact (new_apart _ _ _ _ _ _ _ (Arr q (lenN xs)) _ _ _ I B eq_refl Hw Hy Ly).
    + intros _. exact (new_static _ _ _ _ _ _ _ (Arr q (lenN xs)) I B eq_refl).
Qed.

(** A transient changed: in place if it owns its node, else in a node of its own. *)
Definition owns (m : gmem) (h : handle) (e : nat) : Prop := gown m (ptr h) e = Ok true.
(** The elements copied, paid for by a potential: twice the size less the capacity. *)
Definition cost (m : gmem) (h : handle) (e : nat) (m' : gmem) (h' : handle) : Prop :=
  owns m' h' e /\
  ncopied m' + (2 * hsize h' - hcap h') <= ncopied m + 2 * hsize h + 2 /\
  (owns m h e ->
   ncopied m' + (2 * hsize h' - hcap h') <= ncopied m + (2 * hsize h - hcap h) + 2).
Definition edits (m : gmem) (l : list gvar) (vs : gvals) (i : nat) (h : handle) (e : nat)
  (own : Prop) (r : res (option (handle * gmem))) (ys : list T) : Prop :=
  r = Ok None \/
  exists h' m', r = Ok (Some (h', m')) /\
    inv m' (update_at i (Tra h' e) l) (update_at i (VTra ys) vs) /\
    (own -> cost m h e m' h').
Lemma owns_new m m' q e sl s c : new_block m m' q e sl -> owns m' (mkHandle q s c) e.
Proof.
  intros B. unfold owns, gown. cbn [ptr]. rewrite (rblock_new _ _ _ _ _ B). cbn.
  now rewrite Nat.eqb_refl.
Qed.
Lemma edits_new m l vs i h e xs h' m' e' sl ys : inv m l vs ->
  nth_error l i = Some (Tra h e) -> nth_error vs i = Some (VTra xs) ->
  (e' < next_tok m)%nat -> new_block m m' (ptr h') e' sl -> good sl ys -> hsize h' = lenN ys ->
  hsize h' <= hcap h' -> hcap h' <= lenN sl -> cap_ok (hcap h') ->
  inv m' (update_at i (Tra h' e) l) (update_at i (VTra ys) vs).
Proof.
  intros I Hv Hx He B G Hs H1 H2 H3.
  pose proof (rel_at _ _ _ _ _ _ I Hv Hx) as [_ HE].
  assert (GR : grows m m') by exact (new_grows _ _ _ _ _ _ _ I He B).
  apply inv_set.
  - now apply (inv_grows m).
  - exact (nth_lt _ _ _ Hv).
  - cbn. split; [|destruct GR; lia]. destruct h'. cbn in *.
    exact (holds_new _ _ _ _ _ _ _ _ B G Hs H1 H2 H3).
  - intros _ j w y Hj Hw Hy Ly.
    exact (new_apart _ _ _ _ _ _ _ (Tra h' e) _ _ _ I B eq_refl Hw Hy Ly).
  - intros _. exact (new_static _ _ _ _ _ _ _ (Tra h' e) I B eq_refl).
Qed.
Lemma wc_push_ok m l vs i h e xs x : inv m l vs ->
  nth_error l i = Some (Tra h e) -> nth_error vs i = Some (VTra xs) ->
  edits m l vs i h e True (wc_push_mut trivial esz off nodesz limit m e h x) (xs ++ [x]).
Proof.
  intros I Hv Hx. pose proof (rel_at _ _ _ _ _ _ I Hv Hx) as [H HE].
  destruct (gown_ok m h xs e H) as (b & Hb & Eo).
  pose proof H as (b' & Hb' & Hs & G & Hc & Hsc & Ho). assert (b' = b) by congruence. subst b'.
  pose proof (small' _ Ho) as Hsm.
  assert (E1 : w64 (hsize h + 1) = hsize h + 1) by (apply w64_small; lia).
  assert (EL : lenN (xs ++ [x]) = hsize h + 1) by (rewrite lenN_app, lenN_cons, lenN_nil; lia).
  unfold wc_push_mut. rewrite Eo, E1. cbn [rbind].
  destruct (Nat.eqb_spec (tok b) e) as [Et|Et]; cbn [andb].
  1: destruct (N.ltb_spec (hsize h) (hcap h)) as [Lt|Lt].
  1: { unfold rblock, rnth. rewrite Hb. cbn [rbind]. rewrite Hs.
       destruct (cons' (cells b) xs x G) as (sl & E2 & G2 & L2); [lia|].
       rewrite E2. cbn [rbind].
       destruct (inv_write m l vs i h e xs b sl (mkHandle (ptr h) (hsize h + 1) (hcap h))
                   (xs ++ [x]) I Hv Hx Hb Et) as (m' & E3 & C3 & I' & O3); cbn; auto; try lia.
       rewrite E3. cbn [rbind]. right. do 2 eexists. split; [reflexivity|].
       rewrite <- Hs. split; [exact I'|]. intros _. split; [exact O3|]. cbn [hsize hcap].
       rewrite C3. split; [|intros _]; lia. }
  all: set (cap := recommend_up _ _).
  all: destruct (up' (hsize h + 1) (hcap h) Ho) as (U1 & U2 & U3 & U4); [lia|];
    fold cap in U1, U2, U3, U4.
  all: destruct (gcopy_ok m e cap h xs (hsize h) H)
    as [E|(m' & q & sl & E & B & G' & Hl & Hok & C1)]; try lia; auto.
  all: try (rewrite E; now left).
  all: rewrite E; cbn [rbind]; rewrite (rblock_new _ _ _ _ _ B); cbn [rbind cells].
  all: rewrite Hs, firstn_lenN in G'; rewrite Hs.
  all: destruct (cons' sl xs x G') as (sl2 & E2 & G2 & L2); [lia|].
  all: rewrite E2; cbn [rbind].
  all: destruct (gwrite_new _ _ _ _ _ sl2 B) as (m2 & E3 & B2 & C2); rewrite E3; cbn [rbind].
  all: right; do 2 eexists; split; [reflexivity|].
  all: split; [apply (edits_new m l vs i h e xs _ _ e sl2 _ I Hv Hx); cbn; auto; lia|].
  all: intros _; split; [exact (owns_new _ _ _ _ _ _ _ B2)|]; cbn [hsize hcap]; rewrite C2, C1.
  - split; [lia|]. intros _.
    destruct (N.leb_spec (hsize h + 1) (hcap h)); lia.
  - split; [lia|]. unfold owns. rewrite Eo. destruct (Nat.eqb_spec (tok b) e); [easy|discriminate].
Qed.
Lemma wc_edit_ok m l vs i h e e' xs k f : inv m l vs ->
  nth_error l i = Some (Tra h e) -> nth_error vs i = Some (VTra xs) -> k < lenN xs ->
  (e' < next_tok m)%nat ->
  edits m l vs i h e (e' = e) (wc_edit trivial esz off nodesz limit m e e' h k f)
    (list_set xs (N.to_nat k) f).
Proof.
  intros I Hv Hx Hk He'. pose proof (rel_at _ _ _ _ _ _ I Hv Hx) as [H HE].
  destruct (gown_ok m h xs e H) as (b & Hb & Eo).
  pose proof H as (b' & Hb' & Hs & G & Hc & Hsc & Ho). assert (b' = b) by congruence. subst b'.
  unfold wc_edit. rewrite Eo. cbn [rbind].
  destruct (Nat.eqb_spec (tok b) e) as [Et|Et].
  - unfold rblock, rnth. rewrite Hb. cbn [rbind].
    destruct (edit_good (cells b) xs k f G Hk) as (x & sl2 & Er & E2 & G2 & L2).
    rewrite Er. cbn [rbind]. rewrite E2. cbn [rbind].
    destruct (inv_write m l vs i h e xs b sl2 h (list_set xs (N.to_nat k) f)
                I Hv Hx Hb Et) as (m' & E3 & C3 & I' & O3); rewrite ?set_lenN; auto; try lia.
    rewrite E3. cbn [rbind]. right. do 2 eexists. split; [reflexivity|]. split; [exact I'|].
    intros _. split; [exact O3|]. rewrite C3. split; [|intros _]; lia.
  - destruct (gcopy_ok m e' (hcap h) h xs (hsize h) H)
      as [E|(m' & q & sl & E & B & G' & Hl & Hok & C1)]; try lia; auto.
    { rewrite E. now left. }
    rewrite E. cbn [rbind]. rewrite (rblock_new _ _ _ _ _ B). cbn [rbind cells].
    rewrite Hs, firstn_lenN in G'.
    destruct (edit_good sl xs k f G' Hk) as (x & sl2 & Er & E2 & G2 & L2).
    rewrite Er. cbn [rbind]. rewrite E2. cbn [rbind].
    destruct (gwrite_new _ _ _ _ _ sl2 B) as (m2 & E3 & B2 & C2). rewrite E3. cbn [rbind].
    right. do 2 eexists. split; [reflexivity|]. split.
    { apply (edits_new m l vs i h e xs _ _ e' sl2 _ I Hv Hx); cbn; auto; rewrite ?set_lenN; lia. }
    intros ->. split; [exact (owns_new _ _ _ _ _ _ _ B2)|]. cbn [hsize hcap]. rewrite C2, C1. split; [lia|].
    unfold owns. rewrite Eo. destruct (Nat.eqb_spec (tok b) e); [easy|discriminate].
Qed.
Lemma good_shorter sl (xs : list T) n : trivial = true -> good sl xs -> good sl (firstn n xs).
Proof.
  intros Ht (rest & -> & _). exists (map Some (skipn n xs) ++ rest).
  split; [|now rewrite Ht]. rewrite app_assoc, <- map_app, firstn_skipn. reflexivity.
Qed.
(** The in-place shrink with destructors (see C32). *)
Definition shrinks (m : gmem) (h : handle) (e : nat) (n : N) : Prop :=
  trivial = false /\ n <> hsize h /\ gown m (ptr h) e = Ok true.
Lemma wc_take_ok m l vs i h e xs n : inv m l vs ->
  nth_error l i = Some (Tra h e) -> nth_error vs i = Some (VTra xs) -> n <= lenN xs ->
  ~ shrinks m h e n ->
  edits m l vs i h e True (wc_take_mut trivial esz off nodesz limit m e h n)
    (firstn (N.to_nat n) xs).
Proof.
  intros I Hv Hx Hk Hsh. pose proof (rel_at _ _ _ _ _ _ I Hv Hx) as [H HE].
  destruct (gown_ok m h xs e H) as (b & Hb & Eo).
  pose proof H as (b' & Hb' & Hs & G & Hc & Hsc & Ho). assert (b' = b) by congruence. subst b'.
  pose proof (small' _ Ho) as Hsm.
  assert (Hl : lenN (firstn (N.to_nat n) xs) = n)
    by (unfold lenN in *; rewrite firstn_length; lia).
  unfold wc_take_mut. rewrite Eo. cbn [rbind].
  destruct (Nat.eqb_spec (tok b) e) as [Et|Et].
  - unfold rblock, rnth. rewrite Hb. cbn [rbind].
    assert (HD : destroy_n trivial (cells b) (hsize h)
                   (N.to_nat (w64 (hsize h + 2^64 - n))) = Ok (cells b) /\
                 good (cells b) (firstn (N.to_nat n) xs)).
    { destruct trivial eqn:Ht.
      - split; [|rewrite <- Ht in *; now apply good_shorter].
        destruct (N.to_nat (w64 _)); reflexivity.
      - assert (n = hsize h) as ->.
        { destruct (N.eq_dec n (hsize h)); [assumption|]. exfalso. apply Hsh.
          unfold shrinks. rewrite Ht. auto. }
        split; [|rewrite Hs, firstn_lenN; assumption].
        replace (hsize h + 2^64 - hsize h) with (2^64) by lia.
        unfold w64. rewrite N.mod_same by discriminate. reflexivity. }
    destruct HD as [HD HG]. rewrite HD. cbn [rbind].
    destruct (inv_write m l vs i h e xs b (cells b) (mkHandle (ptr h) n (hcap h))
                (firstn (N.to_nat n) xs) I Hv Hx Hb Et) as (m' & E3 & C3 & I' & O3);
      cbn; auto; try lia.
    rewrite E3. cbn [rbind]. right. do 2 eexists. split; [reflexivity|]. split; [exact I'|].
    intros _. split; [exact O3|]. cbn [hsize hcap].
       rewrite C3. split; [|intros _]; lia.
  - destruct (down' n (hcap h) Ho) as (U1 & U2); [lia|].
    destruct (gcopy_ok m e (recommend_down n (hcap h)) h xs n H)
      as [E|(m' & q & sl & E & B & G' & Hl' & Hok & C1)]; try lia; auto.
    { rewrite E. now left. }
    rewrite E. cbn [rbind]. right. do 2 eexists. split; [reflexivity|]. split.
    { apply (edits_new m l vs i h e xs _ _ e sl _ I Hv Hx); cbn; auto; lia. }
    intros _. split; [exact (owns_new _ _ _ _ _ _ _ B)|]. cbn [hsize hcap]. rewrite C1. split; [lia|].
    unfold owns. rewrite Eo. destruct (Nat.eqb_spec (tok b) e); [easy|discriminate].
Qed.
Lemma edits_set m l vs i h e own r ys : inv m l vs -> edits m l vs i h e own r ys ->
  exists m' v' o, set_tra (mkG m l) i e r = Ok (mkG m' v', o) /\
    ((o = Threw /\ inv m' v' vs) \/ (o = Done /\ inv m' v' (update_at i (VTra ys) vs))).
Proof.
  intros I [->|(h' & m' & -> & I' & _)].
  - exists m, l, Threw. split; [reflexivity|]. now left.
  - do 3 eexists. split; [reflexivity|]. right. auto.
Qed.

(** ** Steps *)
Lemma tok_grows m l vs : inv m l vs ->
  grows m (mkMem (blocks m) (S (next_tok m)) (ncopied m)).
Proof.
  intros I. unfold grows. cbn. repeat split; auto. intros a b H.
  pose proof (i_tok _ _ _ I _ _ H). lia.
Qed.
Lemma reads_fresh m l vs h e : inv m l vs -> (next_tok m <= e)%nat -> reads m (Tra h e).
Proof. intros I He b H. pose proof (i_tok _ _ _ I _ _ H). lia. Qed.
(** A variable that shares the node of variable [i]. *)
Lemma share_apart m l vs i w0 x0 v : inv m l vs -> nth_error l i = Some w0 ->
  nth_error vs i = Some x0 -> live x0 -> ptr_of v = ptr_of w0 -> size_of v = size_of w0 ->
  reads m v -> reads m w0 ->
  forall j w y, nth_error l j = Some w -> nth_error vs j = Some y -> live y -> apart m v w.
Proof.
  intros I Hw0 Hx0 Lx Ep Es Rv R0 j w y Hw Hy Ly a A B.
  destruct (Nat.eq_dec j i) as [->|Hj].
  - assert (w = w0) by congruence. subst. auto.
  - rewrite Ep in A.
    destruct (i_apart _ _ _ I i j w0 w x0 y (not_eq_sym Hj) Hw0 Hw Hx0 Hy Lx Ly a A B)
      as (E & _ & Rw).
    rewrite Es. auto.
Qed.
Lemma share_static m l vs i w0 x0 v : inv m l vs -> nth_error l i = Some w0 ->
  nth_error vs i = Some x0 -> live x0 -> ptr_of v = ptr_of w0 -> size_of v = size_of w0 ->
  at_static v.
Proof.
  intros I Hw0 Hx0 Lx Ep Es a A L. rewrite Es. rewrite Ep in A.
  exact (i_zero _ _ _ I _ _ _ Hw0 Hx0 Lx a A L).
Qed.
(** A variable on one of the two empty nodes. *)
Lemma static_apart m l vs v a : inv m l vs -> ptr_of v = Some a -> (a <= 1)%nat ->
  size_of v = 0 -> reads m v ->
  forall j w y, nth_error l j = Some w -> nth_error vs j = Some y -> live y -> apart m v w.
Proof.
  intros I Ep La Es Rv j w y Hw Hy Ly a' A B. assert (a' = a) by congruence. subst a'.
  split; [|split; [assumption|]].
  - rewrite Es. symmetry. exact (i_zero _ _ _ I _ _ _ Hw Hy Ly a B La).
  - pose proof (rel_at _ _ _ _ _ _ I Hw Hy) as R. destruct w as [|h e|]; cbn; auto.
    cbn in B. injection B as ->. destruct (i_st _ _ _ I a La) as (b & Hb & Tb).
    intros b' Hb'. assert (b' = b) by congruence. subst b'.
    destruct y; cbn in R, Ly; try easy. lia.
Qed.
Lemma arr_at m l vs i xs : inv m l vs -> nth_error vs i = Some (VArr xs) ->
  exists p, nth_error l i = Some (Arr p (lenN xs)) /\
    holds m (mkHandle p (lenN xs) (lenN xs)) xs.
Proof.
  intros I Hx. destruct (F2_nth_r _ _ _ _ _ (i_rel _ _ _ I) Hx) as (v & Hv & R).
  destruct v as [p s|h e|]; cbn in R; try easy. pose proof R as (b & _ & Hs & _). cbn in Hs.
  subst s. eauto.
Qed.
Lemma tra_at m l vs i xs : inv m l vs -> nth_error vs i = Some (VTra xs) ->
  exists h e, nth_error l i = Some (Tra h e) /\ holds m h xs /\ (0 < e < next_tok m)%nat.
Proof.
  intros I Hx. destruct (F2_nth_r _ _ _ _ _ (i_rel _ _ _ I) Hx) as (v & Hv & R).
  destruct v as [p s|h e|]; cbn in R; try easy. destruct R. eauto.
Qed.
Lemma tra_or_moved_at m l vs i : inv m l vs -> is_tra vs i \/ is_moved vs i ->
  exists h e, nth_error l i = Some (Tra h e).
Proof.
  intros I [(xs & Hx)|Hx]; destruct (F2_nth_r _ _ _ _ _ (i_rel _ _ _ I) Hx) as (v & Hv & R);
    destruct v as [p s|h e|]; cbn in R; try easy; eauto.
Qed.

Lemma update_id {A} (l : list A) i x : nth_error l i = Some x -> update_at i x l = l.
Proof.
  revert i. induction l as [|y l IH]; intros [|i] H; cbn in *; try discriminate.
  - now injection H as ->.
  - now rewrite IH.
Qed.
Lemma update_swap {A} (l : list A) i j x y : i <> j ->
  update_at i x (update_at j y l) = update_at j y (update_at i x l).
Proof.
  revert i j. induction l as [|z l IH]; intros [|i] [|j] H; cbn; try reflexivity; [easy|].
  f_equal. apply IH. lia.
Qed.
(** A transient gets a new token. *)
Lemma renew m l vs i h e xs m' e' : inv m l vs -> nth_error l i = Some (Tra h e) ->
  nth_error vs i = Some (VTra xs) -> grows m m' -> blocks m' = blocks m ->
  (next_tok m <= e' < next_tok m')%nat ->
  inv m' (update_at i (Tra h e') l) vs /\
  (forall e2, (next_tok m <= e2)%nat -> reads m' (Tra h e2)).
Proof.
  intros I Hv Hx G EB He.
  assert (HF : forall e2, (next_tok m <= e2)%nat -> reads m' (Tra h e2)).
  { intros e2 H2 b. rewrite EB. intros Hb. pose proof (i_tok _ _ _ I _ _ Hb). lia. }
  split; [|exact HF].
  pose proof (inv_grows _ _ _ _ G I) as I'. pose proof (i_some _ _ _ I) as H0.
  pose proof (rel_at _ _ _ _ _ _ I' Hv Hx) as [R HE].
  rewrite <- (update_id vs i (VTra xs) Hx). apply inv_set; auto.
  - exact (nth_lt _ _ _ Hv).
  - cbn. split; [exact R|lia].
  - intros _ j w y Hj Hw Hy Ly a A B.
    destruct (i_apart _ _ _ I' i j _ w _ y (not_eq_sym Hj) Hv Hw Hx Hy Logic.I Ly a A B)
      as (E & _ & Rw).
    split; [exact E|]. split; [|exact Rw]. apply HF. lia.
  - intros _. exact (share_static _ _ _ _ _ _ (Tra h e') I' Hv Hx Logic.I eq_refl eq_refl).
Qed.
Lemma grows_trans m1 m2 m3 : grows m1 m2 -> grows m2 m3 -> grows m1 m3.
Proof. intros (A1 & B1 & C1) (A2 & B2 & C2). split; [lia|]. split; auto. Qed.

Lemma get_check_ok m h xs k : holds m h xs ->
  g_get_check m (ptr h) (hsize h) k = Ok (nth_error xs (N.to_nat k)).
Proof.
  intros (b & Hb & Hs & G & _). unfold g_get_check. rewrite Hs.
  destruct (N.leb_spec (lenN xs) k) as [L|L].
  - symmetry. f_equal. apply nth_error_None. unfold lenN in L. lia.
  - destruct (nth_in _ _ L) as (x & Hx). unfold rblock, rnth. rewrite Hb. cbn [rbind].
    rewrite (read_good trivial _ _ _ _ G Hx). cbn. now rewrite Hx.
Qed.
Lemma equal_n_ok : forall xs ys sl sl', good sl xs -> good sl' ys -> lenN xs = lenN ys ->
  equal_n teq (length xs) sl sl' = Ok (list_eq teq xs ys).
Proof.
  intros xs ys sl sl' (r1 & -> & _) (r2 & -> & _). revert ys.
  induction xs as [|x xs IH]; intros [|y ys] E; cbn [length map app equal_n list_eq];
    try reflexivity; try (rewrite ?lenN_cons, ?lenN_nil in E; lia).
  destruct (teq x y); cbn [andb]; [|reflexivity]. apply IH. rewrite !lenN_cons in E. lia.
Qed.
Lemma list_eq_len : forall xs ys : list T, lenN xs <> lenN ys -> list_eq teq xs ys = false.
Proof.
  induction xs as [|x xs IH]; intros [|y ys] E; cbn; try reflexivity; [easy|].
  rewrite IH; [now rewrite andb_false_r|]. rewrite !lenN_cons in E. lia.
Qed.
Lemma good_same sl (xs ys : list T) : good sl xs -> good sl ys -> lenN xs = lenN ys -> xs = ys.
Proof.
  intros (r1 & -> & _) (r2 & E & _). revert ys E.
  induction xs as [|x xs IH]; intros [|y ys] E EL; try reflexivity;
    try (rewrite ?lenN_cons, ?lenN_nil in EL; lia).
  cbn in E. injection E as -> E. f_equal. apply IH; [exact E|]. rewrite !lenN_cons in EL. lia.
Qed.
Lemma list_eq_refl (xs : list T) : (forall x, teq x x = true) -> list_eq teq xs xs = true.
Proof. intros H. induction xs; cbn; rewrite ?H; auto. Qed.

(** What the caller must see to: sizes whose byte count fits in 64 bits, and no in-place
    shrink of elements with destructors. *)
Definition gfits (m : gmem) (l : list gvar) (o : gop T) : Prop :=
  match o with
  | GFrom xs => no_wrap (lenN xs)
  | GFill n _ => no_wrap n
  | GTTake i n => forall h e, nth_error l i = Some (Tra h e) -> ~ shrinks m h e n
  | _ => True
  end.
Hypothesis Hrefl : forall x, teq x x = true.

Lemma step_ok m l vs o : inv m l vs -> gvalid vs o -> gfits m l o ->
  exists m' l' r, gstep (mkG m l) o = Ok (mkG m' l', r) /\
    ((allocates o = true /\ r = Threw /\ inv m' l' vs) \/
     (r = gresult teq vs o /\ inv m' l' (gspec vs o))).
Proof.
  intros I V F.
  destruct o as [|xs|n x| |i|i|i j|i j|i|i x|i k f|i n|i|i x|i k f|i k x|i n|i|i|i k|i j];
    cbn [gvalid] in V; cbn [gfits] in F; cbn [GcArray.gstep gspec gresult allocates gm gvars].
  - (* GNew *)
    do 3 eexists. split; [reflexivity|]. right. split; [reflexivity|].
    apply inv_add; auto.
    + exact (i_nc _ _ _ I).
    + intros _. apply (static_apart _ _ _ (Arr O 0) O I); cbn; auto.
    + intros _ a _ _. reflexivity.
  - (* GFrom *)
    destruct xs as [|x xs].
    { do 3 eexists. split; [reflexivity|]. right. split; [reflexivity|].
      apply inv_add; auto.
      + exact (i_nc _ _ _ I).
      + intros _. apply (static_apart _ _ _ (Arr O 0) O I); cbn; auto.
      + intros _ a _ _. reflexivity. }
    destruct (makes_add _ _ _ _ _ I (gfill_makes m _ _ eq_refl F)) as (m' & l' & o & E & H).
    exists m', l', o. split; [exact E|]. tauto.
  - (* GFill *)
    destruct (makes_add _ _ _ _ _ I (gfill_makes m n (repeat x (N.to_nat n))
      ltac:(rewrite lenN_repeat; lia) F)) as (m' & l' & o & E & H).
    exists m', l', o. split; [exact E|]. tauto.
  - (* GNewT *)
    do 3 eexists. split; [reflexivity|]. right. split; [reflexivity|].
    pose proof (tok_grows _ _ _ I) as G. pose proof (inv_grows _ _ _ _ G I) as I'.
    assert (RF : reads (mkMem (blocks m) (S (next_tok m)) (ncopied m)) (Tra wc_empty (next_tok m))).
    { intros b Hb. pose proof (i_tok _ _ _ I _ _ Hb). lia. }
    apply inv_add; auto.
    + cbn. split; [exact (i_wc2 _ _ _ I')|]. pose proof (i_some _ _ _ I). lia.
    + intros _. apply (static_apart _ _ _ (Tra wc_empty (next_tok m)) 1%nat I'); cbn; auto.
    + intros _ a _ _. reflexivity.
  - (* GCopy *)
    destruct V as [(xs & Hx)|(xs & Hx)].
    + destruct (arr_at _ _ _ _ _ I Hx) as (p & Hv & H). unfold gvar_at, rnth. cbn [gvars].
      rewrite Hv. cbn [rbind]. do 3 eexists. split; [reflexivity|]. right.
      split; [reflexivity|]. unfold like, contents. rewrite Hx.
      apply inv_add; auto.
      * intros _. apply (share_apart _ _ _ _ _ _ (Arr p (lenN xs)) I Hv Hx); cbn; auto.
      * intros _. apply (share_static _ _ _ _ _ _ (Arr p (lenN xs)) I Hv Hx); cbn; auto.
    + destruct (tra_at _ _ _ _ _ I Hx) as (h & e & Hv & H & He). unfold gvar_at, rnth.
      cbn [gvars]. rewrite Hv. cbn [rbind new_token blocks next_tok ncopied].
      do 3 eexists. split; [reflexivity|]. right.
      split; [reflexivity|]. unfold like, contents. rewrite Hx.
      set (m2 := mkMem _ _ _).
      assert (G : grows m m2).
      { pose proof (tok_grows _ _ _ I) as G1. pose proof (inv_grows _ _ _ _ G1 I) as I1.
        exact (grows_trans _ _ _ G1 (tok_grows _ _ _ I1)). }
      destruct (renew m l vs i h e xs m2 (S (next_tok m)) I Hv Hx G eq_refl) as [I2 RF].
      { cbn. lia. }
      assert (Hv2 : nth_error (update_at i (Tra h (S (next_tok m))) l) i =
                    Some (Tra h (S (next_tok m)))) by now rewrite nth_update, Nat.eqb_refl, Hv.
      pose proof (rel_at _ _ _ _ _ _ I2 Hv2 Hx) as [R2 _].
      apply inv_add; auto.
      * cbn. split; [exact R2|lia].
      * intros _. apply (share_apart _ _ _ _ _ _ (Tra h (next_tok m)) I2 Hv2 Hx);
          auto; try exact Logic.I.
      * intros _. apply (share_static _ _ _ _ _ _ (Tra h (next_tok m)) I2 Hv2 Hx);
          auto; try exact Logic.I.
  - (* GMove *)
    destruct V as [(xs & Hx)|(xs & Hx)].
    + destruct (arr_at _ _ _ _ _ I Hx) as (p & Hv & H). unfold gvar_at, rnth. cbn [gvars].
      rewrite Hv. cbn [rbind]. do 3 eexists. split; [reflexivity|]. right.
      split; [reflexivity|]. unfold like, contents. rewrite Hx.
      pose proof (nth_lt _ _ _ Hv). pose proof (nth_lt _ _ _ Hx).
      rewrite <- !update_app_l by assumption.
      assert (I1 : inv m (l ++ [Arr p (lenN xs)]) (vs ++ [VArr xs])).
      { apply inv_add; auto.
        - intros _. apply (share_apart _ _ _ _ _ _ (Arr p (lenN xs)) I Hv Hx); cbn; auto.
        - intros _. apply (share_static _ _ _ _ _ _ (Arr p (lenN xs)) I Hv Hx); cbn; auto. }
      apply inv_set; auto.
      * rewrite app_length. lia.
      * exact (i_nc _ _ _ I).
      * intros _ j w y _. apply (static_apart _ _ _ (Arr O 0) O I1); cbn; auto.
      * intros _ a _ _. reflexivity.
    + destruct (tra_at _ _ _ _ _ I Hx) as (h & e & Hv & H & He). unfold gvar_at, rnth.
      cbn [gvars]. rewrite Hv. cbn [rbind].
      do 3 eexists. split; [reflexivity|]. right.
      split; [reflexivity|]. unfold like, contents. rewrite Hx.
      assert (I1 : inv m (update_at i (Tra wc_empty e) l) (update_at i VMoved vs)).
      { apply inv_set; cbn; auto; try easy. exact (nth_lt _ _ _ Hv). }
      apply inv_add; auto.
      * cbn. auto.
      * intros _ j w y Hw Hy Ly. rewrite nth_update in Hw. rewrite nth_update in Hy.
        destruct (Nat.eqb_spec i j) as [<-|Hj].
        { rewrite Hx in Hy. injection Hy as <-. destruct Ly. }
        exact (i_apart _ _ _ I i j _ w _ y Hj Hv Hw Hx Hy Logic.I Ly).
      * intros _. exact (share_static _ _ _ _ _ _ (Tra h e) I Hv Hx Logic.I eq_refl eq_refl).
  - (* GAssign *)
    destruct V as [[(xi & Hxi) (xs & Hx)]|[Vi (xs & Hx)]].
    + destruct (arr_at _ _ _ _ _ I Hxi) as (pi & Hvi & Hi).
      destruct (arr_at _ _ _ _ _ I Hx) as (p & Hv & H). unfold gvar_at, rnth. cbn [gvars].
      rewrite Hvi, Hv. cbn [rbind]. do 3 eexists. split; [reflexivity|]. right.
      split; [reflexivity|]. unfold like, contents. rewrite Hx.
      apply inv_set; auto.
      * exact (nth_lt _ _ _ Hvi).
      * intros _ k w y _. apply (share_apart _ _ _ _ _ _ (Arr p (lenN xs)) I Hv Hx); cbn; auto.
      * intros _. apply (share_static _ _ _ _ _ _ (Arr p (lenN xs)) I Hv Hx); cbn; auto.
    + destruct (tra_or_moved_at _ _ _ _ I Vi) as (hi & ei & Hvi).
      destruct (tra_at _ _ _ _ _ I Hx) as (h & e & Hv & H & He). unfold gvar_at, rnth.
      cbn [gvars]. rewrite Hvi, Hv. cbn [rbind new_token blocks next_tok ncopied].
      do 3 eexists. split; [reflexivity|]. right.
      split; [reflexivity|]. unfold like, contents. rewrite Hx.
      set (m2 := mkMem _ _ _).
      assert (G : grows m m2).
      { pose proof (tok_grows _ _ _ I) as G1. pose proof (inv_grows _ _ _ _ G1 I) as I1.
        exact (grows_trans _ _ _ G1 (tok_grows _ _ _ I1)). }
      destruct (renew m l vs j h e xs m2 (next_tok m) I Hv Hx G eq_refl) as [I2 RF].
      { cbn. lia. }
      assert (Hv2 : nth_error (update_at j (Tra h (next_tok m)) l) j =
                    Some (Tra h (next_tok m))) by now rewrite nth_update, Nat.eqb_refl, Hv.
      pose proof (rel_at _ _ _ _ _ _ I2 Hv2 Hx) as [R2 _].
      apply inv_set; auto.
      * rewrite update_length. exact (nth_lt _ _ _ Hvi).
      * cbn. split; [exact R2|lia].
      * intros _ k w y _. apply (share_apart _ _ _ _ _ _ (Tra h (S (next_tok m))) I2 Hv2 Hx);
          auto; try exact Logic.I.
      * intros _. apply (share_static _ _ _ _ _ _ (Tra h (S (next_tok m))) I2 Hv2 Hx);
          auto; try exact Logic.I.
  - (* GMoveAssign *)
    destruct V as [[(xi & Hxi) (xs & Hx)]|[Vi (xs & Hx)]].
    + destruct (arr_at _ _ _ _ _ I Hxi) as (pi & Hvi & Hi).
      destruct (arr_at _ _ _ _ _ I Hx) as (p & Hv & H). unfold gvar_at, rnth. cbn [gvars].
      rewrite Hvi, Hv. cbn [rbind]. do 3 eexists. split; [reflexivity|]. right.
      split; [reflexivity|]. unfold like, contents. rewrite Hx, Hxi.
      assert (I1 : inv m (update_at i (Arr p (lenN xs)) l) (update_at i (VArr xs) vs)).
      { apply inv_set; auto.
        - exact (nth_lt _ _ _ Hvi).
        - intros _ k w y _. apply (share_apart _ _ _ _ _ _ (Arr p (lenN xs)) I Hv Hx); cbn; auto.
        - intros _. apply (share_static _ _ _ _ _ _ (Arr p (lenN xs)) I Hv Hx); cbn; auto. }
      apply inv_set; auto.
      * rewrite update_length. exact (nth_lt _ _ _ Hv).
      * intros _ k w y Hk Hw Hy Ly. rewrite nth_update in Hw. rewrite nth_update in Hy.
        destruct (Nat.eqb_spec i k) as [<-|Hik].
        { rewrite Hvi in Hw. injection Hw as <-.
          apply (share_apart _ _ _ _ _ _ (Arr pi (lenN xi)) I Hvi Hxi Logic.I eq_refl eq_refl
                   Logic.I Logic.I j _ _ Hv Hx Logic.I). }
        exact (i_apart _ _ _ I i k _ w _ y Hik Hvi Hw Hxi Hy Logic.I Ly).
      * intros _. apply (share_static _ _ _ _ _ _ (Arr pi (lenN xi)) I Hvi Hxi); cbn; auto.
    + destruct (tra_or_moved_at _ _ _ _ I Vi) as (hi & ei & Hvi).
      destruct (tra_at _ _ _ _ _ I Hx) as (h & e & Hv & H & He). unfold gvar_at, rnth.
      cbn [gvars]. rewrite Hvi, Hv. cbn [rbind].
      do 3 eexists. split; [reflexivity|]. right.
      split; [reflexivity|]. unfold like, contents. rewrite Hx.
      replace (match nth_error vs i with Some (VArr xs0) => VArr xs0 | _ => VMoved end)
        with (@VMoved T) by (destruct Vi as [(? & ->)| ->]; reflexivity).
      assert (I1 : inv m (update_at j (Tra hi e) l) (update_at j VMoved vs)).
      { apply inv_set; cbn; auto; try easy. exact (nth_lt _ _ _ Hv). }
      destruct (Nat.eq_dec i j) as [->|Hij].
      { rewrite !update_same. exact I1. }
      rewrite (update_swap l), (update_swap vs) by congruence.
      apply inv_set; auto.
      * rewrite update_length. exact (nth_lt _ _ _ Hvi).
      * cbn. auto.
      * intros _ k w y Hk Hw Hy Ly. rewrite nth_update in Hw. rewrite nth_update in Hy.
        destruct (Nat.eqb_spec j k) as [<-|Hjk].
        { rewrite Hx in Hy. injection Hy as <-. destruct Ly. }
        exact (i_apart _ _ _ I j k _ w _ y Hjk Hv Hw Hx Hy Logic.I Ly).
      * intros _. exact (share_static _ _ _ _ _ _ (Tra h e) I Hv Hx Logic.I eq_refl eq_refl).
  - (* GDestroy *)
    assert (exists v, nth_error l i = Some v /\ v <> Gone) as (v & Hv & Hg).
    { destruct V as [(xs & Hx)|V].
      - destruct (arr_at _ _ _ _ _ I Hx) as (p & Hv & _). eexists. split; [exact Hv|discriminate].
      - destruct (tra_or_moved_at _ _ _ _ I V) as (h & e & Hv). eexists.
        split; [exact Hv|discriminate]. }
    unfold gvar_at, rnth. cbn [gvars]. rewrite Hv. cbn [rbind].
    exists m, (update_at i Gone l), Done. split; [now destruct v|]. right. split; [reflexivity|].
    apply inv_set; cbn; auto; try easy. exact (nth_lt _ _ _ Hv).
  - (* GPush *)
    destruct V as (xs & Hx). destruct (arr_at _ _ _ _ _ I Hx) as (p & Hv & H).
    unfold gvar_at, rnth. cbn [gvars]. rewrite Hv. cbn [rbind]. unfold contents. rewrite Hx.
    destruct (makes_add _ _ _ _ _ I (nc_push_ok m p _ xs x H)) as (m' & l' & o & E & HH).
    exists m', l', o. split; [exact E|]. tauto.
  - (* GUpdate *)
    destruct V as ((xs & Hx) & Hk). destruct (arr_at _ _ _ _ _ I Hx) as (p & Hv & H).
    unfold gvar_at, rnth. cbn [gvars]. rewrite Hv. cbn [rbind]. unfold contents in *.
    rewrite Hx in *.
    destruct (makes_add _ _ _ _ _ I (nc_update_ok m p _ xs k f H Hk)) as (m' & l' & o & E & HH).
    exists m', l', o. split; [exact E|]. tauto.
  - (* GTake *)
    destruct V as ((xs & Hx) & Hk). destruct (arr_at _ _ _ _ _ I Hx) as (p & Hv & H).
    unfold gvar_at, rnth. cbn [gvars]. rewrite Hv. cbn [rbind]. unfold contents in *.
    rewrite Hx in *.
    destruct (makes_add _ _ _ _ _ I (nc_copy_ok m _ xs n H Hk)) as (m' & l' & o & E & HH).
    exists m', l', o. split; [exact E|]. tauto.
  - (* GTransient *)
    destruct V as (xs & Hx). destruct (arr_at _ _ _ _ _ I Hx) as (p & Hv & H).
    unfold gvar_at, rnth. cbn [gvars]. rewrite Hv. cbn [rbind new_token].
    do 3 eexists. split; [reflexivity|]. right.
    split; [reflexivity|]. unfold contents. rewrite Hx.
    pose proof (tok_grows _ _ _ I) as G. pose proof (inv_grows _ _ _ _ G I) as I'.
    pose proof (holds_grows _ _ _ _ G H) as H'.
    assert (RF : reads (mkMem (blocks m) (S (next_tok m)) (ncopied m))
                   (Tra (wc_of_nc p (lenN xs)) (next_tok m))).
    { intros b Hb. pose proof (i_tok _ _ _ I _ _ Hb). lia. }
    apply inv_add; auto.
    + cbn. split; [exact H'|]. pose proof (i_some _ _ _ I). lia.
    + intros _. apply (share_apart _ _ _ _ _ _ (Tra (wc_of_nc p (lenN xs)) (next_tok m)) I' Hv Hx);
        auto; exact Logic.I.
    + intros _. apply (share_static _ _ _ _ _ _ (Tra (wc_of_nc p (lenN xs)) (next_tok m)) I' Hv Hx);
        auto; exact Logic.I.
  - (* GTPush *)
    destruct V as (xs & Hx). destruct (tra_at _ _ _ _ _ I Hx) as (h & e & Hv & H & He).
    unfold gvar_at, rnth. cbn [gvars]. rewrite Hv. cbn [rbind]. unfold contents. rewrite Hx.
    destruct (edits_set _ _ _ _ _ _ _ _ _ I (wc_push_ok m l vs i h e xs x I Hv Hx))
      as (m' & l' & o & E & HH).
    exists m', l', o. split; [exact E|]. tauto.
  - (* GTUpdate *)
    destruct V as ((xs & Hx) & Hk). destruct (tra_at _ _ _ _ _ I Hx) as (h & e & Hv & H & He).
    unfold gvar_at, rnth. cbn [gvars]. rewrite Hv. cbn [rbind]. unfold contents in *. rewrite Hx in *.
    destruct (edits_set _ _ _ _ _ _ _ _ _ I
      (wc_edit_ok m l vs i h e e xs k f I Hv Hx Hk (proj2 He))) as (m' & l' & o & E & HH).
    exists m', l', o. split; [exact E|]. tauto.
  - (* GTSet *)
    destruct V as ((xs & Hx) & Hk). destruct (tra_at _ _ _ _ _ I Hx) as (h & e & Hv & H & He).
    unfold gvar_at, rnth. cbn [gvars]. rewrite Hv. cbn [rbind]. unfold contents in *. rewrite Hx in *.
    destruct (edits_set _ _ _ _ _ _ _ _ _ I
      (wc_edit_ok m l vs i h e 0 xs k (fun _ => x) I Hv Hx Hk (i_some _ _ _ I)))
      as (m' & l' & o & E & HH).
    exists m', l', o. split; [exact E|]. tauto.
  - (* GTTake *)
    destruct V as ((xs & Hx) & Hk). destruct (tra_at _ _ _ _ _ I Hx) as (h & e & Hv & H & He).
    unfold gvar_at, rnth. cbn [gvars]. rewrite Hv. cbn [rbind]. unfold contents in *. rewrite Hx in *.
    destruct (edits_set _ _ _ _ _ _ _ _ _ I
      (wc_take_ok m l vs i h e xs n I Hv Hx Hk (F h e Hv))) as (m' & l' & o & E & HH).
    exists m', l', o. split; [exact E|]. tauto.
  - (* GPersistent *)
    destruct V as (xs & Hx). destruct (tra_at _ _ _ _ _ I Hx) as (h & e & Hv & H & He).
    unfold gvar_at, rnth. cbn [gvars]. rewrite Hv. cbn [rbind new_token]. unfold contents. rewrite Hx.
    pose proof (tok_grows _ _ _ I) as G. set (m1 := mkMem _ _ _) in *.
    destruct (renew m l vs i h e xs m1 (next_tok m) I Hv Hx G eq_refl) as [I1 RF].
    { cbn. lia. }
    set (l1 := update_at i (Tra h (next_tok m)) l) in *.
    assert (Hv1 : nth_error l1 i = Some (Tra h (next_tok m)))
      by (unfold l1; now rewrite nth_update, Nat.eqb_refl, Hv).
    pose proof (rel_at _ _ _ _ _ _ I1 Hv1 Hx) as [H1 _].
    unfold nc_of_wc. destruct (N.eqb_spec (hsize h) (hcap h)) as [Ec|Ec].
    + do 3 eexists. split; [reflexivity|]. right. split; [reflexivity|]. cbn [gvars].
      apply inv_add; auto.
      * cbn. destruct H1 as (b & ? & ? & ? & ? & ? & ?). exists b. cbn.
        rewrite Ec in *. auto 8.
      * intros _. apply (share_apart _ _ _ _ _ _ (Arr (ptr h) (hsize h)) I1 Hv1 Hx);
          auto; try exact Logic.I.
      * intros _. apply (share_static _ _ _ _ _ _ (Arr (ptr h) (hsize h)) I1 Hv1 Hx); cbn; auto.
    + pose proof H1 as (b & _ & Hs & _).
      pose proof (nc_copy_ok m1 h xs (hsize h) H1) as M. rewrite Hs, firstn_lenN, <- Hs in M.
      destruct (makes_add _ _ _ _ _ I1 (M ltac:(lia))) as (m' & l' & o & E & HH).
      exists m', l', o. split; [exact E|]. tauto.
  - (* GPersistentRv *)
    destruct V as (xs & Hx). destruct (tra_at _ _ _ _ _ I Hx) as (h & e & Hv & H & He).
    unfold gvar_at, rnth. cbn [gvars]. rewrite Hv. cbn [rbind]. unfold contents. rewrite Hx.
    assert (I1 : inv m l (update_at i VMoved vs)).
    { rewrite <- (update_id l i _ Hv). apply inv_set; cbn; auto; try easy. exact (nth_lt _ _ _ Hv). }
    unfold nc_of_wc. destruct (N.eqb_spec (hsize h) (hcap h)) as [Ec|Ec].
    + do 3 eexists. split; [reflexivity|]. right. split; [reflexivity|]. cbn [gvars].
      apply inv_add; auto.
      * cbn. destruct H as (b & ? & ? & ? & ? & ? & ?). exists b. cbn.
        rewrite Ec in *. auto 8.
      * intros _ j w y Hw Hy Ly. rewrite nth_update in Hy. destruct (Nat.eqb_spec i j) as [<-|Hj].
        { rewrite Hx in Hy. injection Hy as <-. destruct Ly. }
        intros a A B.
        destruct (i_apart _ _ _ I i j _ w _ y Hj Hv Hw Hx Hy Logic.I Ly a A B) as (E & _ & Rw).
        split; [exact E|]. split; [exact Logic.I|exact Rw].
      * intros _. apply (share_static _ _ _ _ _ _ (Arr (ptr h) (hsize h)) I Hv Hx); cbn; auto.
    + pose proof H as (b & _ & Hs & _).
      pose proof (nc_copy_ok m h xs (hsize h) H) as M. rewrite Hs, firstn_lenN, <- Hs in M.
      specialize (M ltac:(lia)).
      destruct (makes_add _ _ _ _ _ I1 M) as (m' & l' & o & E & [[-> HH]|[-> HH]]).
      * exists m, l, Threw. destruct M as [M|(q & m2 & sl & M & _)]; rewrite M in *.
        -- split; [reflexivity|]. left. auto.
        -- discriminate E.
      * exists m', l', Done. split; [exact E|]. right. auto.
  - (* GAt *)
    assert (exists v, nth_error l i = Some v /\
      match v with Arr p n => g_get_check m p n k
                 | Tra h _ => g_get_check m (ptr h) (hsize h) k | Gone => UB end =
      Ok (nth_error (contents vs i) (N.to_nat k))) as (v & Hv & E).
    { destruct V as [(xs & Hx)|(xs & Hx)]; unfold contents; rewrite Hx.
      - destruct (arr_at _ _ _ _ _ I Hx) as (p & Hv & H). eexists. split; [exact Hv|].
        exact (get_check_ok _ _ _ k H).
      - destruct (tra_at _ _ _ _ _ I Hx) as (h & e & Hv & H & He). eexists. split; [exact Hv|].
        exact (get_check_ok _ _ _ k H). }
    unfold gvar_at, rnth. cbn [gvars]. rewrite Hv. cbn [rbind]. rewrite E. cbn [rbind].
    do 3 eexists. split; [reflexivity|]. right. auto.
  - (* GEq *)
    destruct V as [(xi & Hxi) (xs & Hx)].
    destruct (arr_at _ _ _ _ _ I Hxi) as (pi & Hvi & Hi).
    destruct (arr_at _ _ _ _ _ I Hx) as (p & Hv & H). unfold gvar_at, rnth. cbn [gvars].
    rewrite Hvi, Hv. cbn [rbind]. unfold contents. rewrite Hxi, Hx.
    assert (E : nc_equals teq m pi (lenN xi) p (lenN xs) = Ok (list_eq teq xi xs)).
    { unfold nc_equals. destruct Hi as (bi & Hbi & _ & Gi & _), H as (b & Hb & _ & G & _).
      cbn in Hbi, Hb. destruct (Nat.eqb_spec pi p) as [->|Hp].
      - assert (bi = b) by congruence. subst bi.
        assert (lenN xi = lenN xs).
        { destruct (Nat.eq_dec i j) as [->|Hij]; [congruence|].
          destruct (i_apart _ _ _ I i j _ _ _ _ Hij Hvi Hv Hxi Hx Logic.I Logic.I p eq_refl eq_refl)
            as (E & _). exact E. }
        rewrite (good_same _ _ _ Gi G) by assumption. now rewrite list_eq_refl.
      - destruct (N.eqb_spec (lenN xi) (lenN xs)) as [El|El].
        + unfold rblock, rnth. rewrite Hbi, Hb. cbn [rbind]. unfold lenN at 1.
          rewrite Nnat.Nat2N.id. now apply equal_n_ok.
        + now rewrite list_eq_len. }
    rewrite E. cbn [rbind]. do 3 eexists. split; [reflexivity|]. right. auto.
Qed.

(** ** Costs *)
Definition edit_op (i : nat) (o : gop T) : Prop :=
  match o with
  | GTPush j _ | GTUpdate j _ _ | GTTake j _ => j = i
  | _ => False
  end.
Lemma edit_cost m l vs i h e xs o s' r : inv m l vs -> gvalid vs o -> gfits m l o ->
  edit_op i o -> nth_error l i = Some (Tra h e) -> nth_error vs i = Some (VTra xs) ->
  gstep (mkG m l) o = Ok (s', r) ->
  (s' = mkG m l /\ r = Threw) \/
  (r = Done /\ exists h', nth_error (gvars s') i = Some (Tra h' e) /\ cost m h e (gm s') h').
Proof.
  intros I V F Ho Hv Hx E.
  assert (HE : forall ro ys, set_tra (mkG m l) i e ro = Ok (s', r) ->
    edits m l vs i h e True ro ys ->
    (s' = mkG m l /\ r = Threw) \/
    (r = Done /\ exists h', nth_error (gvars s') i = Some (Tra h' e) /\ cost m h e (gm s') h')).
  { intros ro ys E1 [->|(h' & m' & -> & _ & C)]; cbn in E1; injection E1 as <- <-.
    - now left.
    - right. split; [reflexivity|]. exists h'. cbn [gvars gm].
      rewrite nth_update, Nat.eqb_refl, Hv. auto. }
  destruct o; cbn [edit_op] in Ho; try easy; subst; cbn [GcArray.gstep gm gvars] in E;
    unfold gvar_at, rnth in E; cbn [gvars] in E; rewrite Hv in E; cbn [rbind] in E;
    cbn [gvalid] in V.
  - exact (HE _ _ E (wc_push_ok m l vs i h e xs x I Hv Hx)).
  - destruct V as (_ & Hk). unfold contents in Hk. rewrite Hx in Hk.
    pose proof (rel_at _ _ _ _ _ _ I Hv Hx) as [_ He].
    assert (W := wc_edit_ok m l vs i h e e xs k f I Hv Hx Hk (proj2 He)).
    apply (HE _ (list_set xs (N.to_nat k) f) E). 
    destruct W as [W|(h' & m' & W & I' & C)]; [now left|]. right. exists h', m'. auto.
  - destruct V as (_ & Hk). unfold contents in Hk. rewrite Hx in Hk.
    exact (HE _ _ E (wc_take_ok m l vs i h e xs n I Hv Hx Hk (F h e Hv))).
Qed.

(** ** The start *)
Lemma init_ok s : GcArray.ginit (T := T) esz off nodesz limit = Ok (Some s) ->
  inv (gm s) (gvars s) [] /\ nodesz <= limit.
Proof.
  unfold GcArray.ginit, GcArray.gmake. cbn [blocks next_tok ncopied].
  destruct (N.ltb_spec limit (sizeof_n esz off nodesz 0)) as [L0|L0]; cbn [rbind]; [discriminate|].
  destruct (N.ltb_spec limit (sizeof_n esz off nodesz 1)) as [L1|L1]; cbn [rbind]; [discriminate|].
  intros E. injection E as <-. cbn [gm gvars].
  assert (W0 : no_wrap 0) by (unfold ArrayProofs.no_wrap; lia).
  assert (W1 : no_wrap 1) by (unfold ArrayProofs.no_wrap; lia).
  split; [|unfold sizeof_n in L0; lia].
  constructor; cbn [blocks next_tok app].
  - constructor.
  - intros [|i] j v w x y _ Hv; discriminate.
  - intros [|[|[|a]]] b H; cbn in H; try discriminate; injection H as <-; cbn; lia.
  - lia.
  - intros [|[|a]] Ha; try lia; cbn; eauto.
  - eexists. split; [reflexivity|]. cbn [hsize hcap cells].
    split; [reflexivity|]. split; [apply good_fresh|]. rewrite lenN_repeat.
    split; [lia|]. split; [lia|]. exact (fits' 0 W0 L0).
  - eexists. split; [reflexivity|]. cbn [wc_empty hsize hcap cells].
    split; [reflexivity|]. split; [apply good_fresh|]. rewrite lenN_repeat.
    split; [pose proof (room_ge' 1 W1); lia|]. split; [lia|]. exact (fits' 1 W1 L1).
  - intros [|i] v x H; discriminate.
Qed.

(** ** set does not take ownership *)
Lemma gcopy_fits (m : gmem) e n a count : cap_ok n -> nodesz <= limit -> gcopy m e n a count <> Ok None.
Proof.
  intros Hn Hl. unfold GcArray.gcopy. destruct (rblock m a) as [b|]; [|discriminate]. cbn [rbind].
  destruct (read_n (N.to_nat count) (cells b)) as [xs|]; [|discriminate]. cbn [rbind].
  unfold GcArray.gfill, GcArray.gmake. destruct (N.ltb_spec limit (sizeof_n esz off nodesz n)) as [L|L].
  - unfold sizeof_n in L. unfold ArrayProofs.cap_ok in Hn.
    rewrite (w64_small (esz * n)), (w64_small (off + esz * n)) in L by lia. lia.
  - cbn [rbind]. destruct (rblock _ _) as [b'|]; [|discriminate]. cbn [rbind].
    destruct (construct_all trivial (cells b') 0 xs); discriminate.
Qed.
Lemma set_cost m l vs i h e xs k x : inv m l vs -> nodesz <= limit ->
  nth_error l i = Some (Tra h e) -> nth_error vs i = Some (VTra xs) -> k < lenN xs ->
  ~ owns m h e ->
  exists m' h', gstep (mkG m l) (GTSet i k x) = Ok (mkG m' (update_at i (Tra h' e) l), Done) /\
    ncopied m' = ncopied m + lenN xs /\ ~ owns m' h' e /\
    inv m' (update_at i (Tra h' e) l)
      (update_at i (VTra (list_set xs (N.to_nat k) (fun _ => x))) vs).
Proof.
  intros I Hl Hv Hx Hk Hno. pose proof (rel_at _ _ _ _ _ _ I Hv Hx) as [H HE].
  destruct (gown_ok m h xs e H) as (b & Hb & Eo).
  pose proof H as (b' & Hb' & Hs & G & Hc & Hsc & Ho). assert (b' = b) by congruence. subst b'.
  cbn [GcArray.gstep gm gvars]. unfold gvar_at, rnth. cbn [gvars]. rewrite Hv. cbn [rbind].
  unfold wc_assoc_mut, wc_edit. rewrite Eo. cbn [rbind].
  destruct (Nat.eqb_spec (tok b) e) as [Et|Et]; [destruct Hno; exact Eo|].
  destruct (gcopy_ok m 0 (hcap h) h xs (hsize h) H)
    as [E|(m' & q & sl & E & B & G' & Hl' & Hok & C1)]; try lia; auto.
  { destruct (gcopy_fits _ _ _ _ _ Ho Hl E). }
  rewrite E. cbn [rbind]. rewrite (rblock_new _ _ _ _ _ B). cbn [rbind cells].
  rewrite Hs, firstn_lenN in G'.
  destruct (edit_good sl xs k (fun _ => x) G' Hk) as (y & sl2 & Er & E2 & G2 & L2).
  rewrite Er. cbn [rbind]. rewrite E2. cbn [rbind].
  destruct (gwrite_new _ _ _ _ _ sl2 B) as (m2 & E3 & B2 & C2). rewrite E3. cbn [rbind].
  unfold set_tra. cbn [rbind gvars].
  do 2 eexists. split; [reflexivity|]. split; [rewrite C2, C1; lia|]. split.
  - unfold owns, gown. cbn [ptr]. rewrite (rblock_new _ _ _ _ _ B2). cbn [rbind tok].
    destruct (Nat.eqb_spec 0 e); [lia|discriminate].
  - apply (edits_new m l vs i h e xs _ _ 0%nat sl2 _ I Hv Hx); cbn; auto; rewrite ?set_lenN; lia.
Qed.
End Proofs.
