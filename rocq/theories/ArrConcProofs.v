(** Arrays of several threads: a thread sees what the specification says about its own
    variables, whatever the others do. *)
From Coq Require Import List NArith Arith Bool Lia Permutation ZifyN ZifyNat ZifyBool.
Set Warnings "-notation-overridden,-inconsistent-scopes".
From Verif Require Import Common NList RrbSpec Array ArraySpec.
From Verif Require ArrayProofs.
From Verif Require Import AtomProofs RcHeap RcProofs Conc ConcProofs ArraySpec ArrConcSpec ArrConc.
Import ListNotations.
Local Open Scope N_scope.
Set Default Goal Selector "!".

Section Proofs.
Context {T : Type}.
Variable trivial : bool.
Variables esz off nodesz limit : N.
Variable teq : T -> T -> bool.
Hypothesis Hesz : 0 < esz.
Hypothesis Hoff : 0 < off.
Hypothesis Hnode : off + esz <= nodesz.
Hypothesis Hnode2 : nodesz < 2^63.
Hypothesis Hlim : limit < 2^63.
Hypothesis Hfirst : nodesz <= limit.
Hypothesis teq_refl : forall x, teq x x = true.

Notation slots := (list (option T)).
Notation heap := (heap slots).
Notation cell := (cell slots).
Notation G := [ptr c_empty].
Notation cwp := (cwp G).
Notation post A := (A -> list nat -> list nat -> heap -> Prop).
Notation good := (ArrayProofs.good trivial).
Notation cap_ok := (ArrayProofs.cap_ok esz off limit).
Notation no_wrap := (ArrayProofs.no_wrap esz off).
Notation size_of := (sizeof_n esz off nodesz).
Notation room := (room esz off nodesz).

(** *** Sizes *)
Lemma w64_small x : x < 2^64 -> w64 x = x.
Proof. intros H. unfold w64. now apply N.mod_small. Qed.
Lemma fits n : no_wrap n -> size_of n <= limit -> cap_ok n.
Proof. now apply ArrayProofs.fits_cap. Qed.
Lemma fits_le n cap : cap_ok cap -> n <= N.max cap 1 -> no_wrap n /\ ~ limit < size_of n.
Proof.
  intros Hc Hn.
  assert (Hb : off + esz * n <= limit).
  { unfold ArrayProofs.cap_ok in Hc. destruct (N.max_spec cap 1) as [[_ E]|[_ E]]; rewrite E in Hn.
    - assert (esz * n <= esz * 1) by (apply N.mul_le_mono_l; exact Hn). lia.
    - assert (esz * n <= esz * cap) by (apply N.mul_le_mono_l; exact Hn). lia. }
  assert (W : no_wrap n) by (unfold ArrayProofs.no_wrap; clear -Hb Hlim; lia).
  split; [exact W|]. rewrite (ArrayProofs.sizeof_no_wrap esz off nodesz n W). lia.
Qed.
Lemma room_ge n : no_wrap n -> n <= room n.
Proof. now apply (ArrayProofs.room_ge esz off nodesz limit). Qed.

(** *** Blocks *)
Lemma cell_one (h : heap) a c d : cell_at h a c -> cell_at h a d -> c = d.
Proof. unfold cell_at. congruence. Qed.
(** A local block is not one that is referred to. *)
Lemma cwp_apart {A} (p : prog slots A) F L R h a : In a L -> (~ In a (G ++ R) -> cwp p F L R h) -> cwp p F L R h.
Proof.
  intros Hi H.
  assert (X : forall Le Re, incl G Re -> st (L ++ Le) h (R ++ Re) -> cwp p F L R h).
  { intros Le Re HG S. apply H. intros Ha.
    apply (st_from_out _ _ _ a S); [|apply in_or_app; now left]. apply from_root.
    apply in_app_or in Ha as [Ha|Ha]; apply in_or_app; auto. }
  destruct p as [a0| |C q k]; intros Le Re HG S; exact (X Le Re HG S Le Re HG S).
Qed.

(** [hd] holds [xs] in a block with the slots [sl]. *)
Definition fitting (hd : handle) (sl : slots) (xs : list T) : Prop :=
  hsize hd = lenN xs /\ good sl xs /\ hcap hd <= lenN sl /\ hsize hd <= hcap hd /\ cap_ok (hcap hd).
Definition holds (h : heap) (hd : handle) (xs : list T) : Prop :=
  exists c, cell_at h (ptr hd) c /\ c_kids c = [] /\ fitting hd (c_body c) xs.
Lemma holds_rely L R (h h' : heap) hd xs : rely L (G ++ R) h h' -> In (ptr hd) (G ++ R) -> holds h hd xs -> holds h' hd xs.
Proof.
  intros Rl Hi (c & Hc & Hk & Hf). destruct (rely_cell _ _ _ _ _ _ Rl (from_root _ _ _ Hi) Hc) as (c' & Hc' & [E1 E2]).
  exists c'. rewrite E1, E2. auto.
Qed.
Lemma holds_local L R (h h' : heap) hd xs : rely L (G ++ R) h h' -> In (ptr hd) L -> holds h hd xs -> holds h' hd xs.
Proof.
  intros Rl Hi (c & Hc & Hk & Hf). exists c. split; [eapply rely_local; [exact Rl|exact Hi|exact Hc]|]. auto.
Qed.
Lemma rely_less L R R' (h h' : heap) : rely L (G ++ R) h h' -> incl R' R -> rely [] (G ++ R') h h'.
Proof.
  intros H Hi. eapply rely_incl; [apply incl_nil_l| |exact H]. intros x Hx.
  apply in_app_or in Hx as [Hx|Hx]; apply in_or_app; auto.
Qed.

(** *** Nodes *)
Lemma cwp_make n (F : post (option nat)) L R h :
  (limit < size_of n -> F None L R h) ->
  (forall a h', size_of n <= limit -> rely L (G ++ R) h h' -> ~ In a (G ++ R) ->
     cell_at h' a (mkCell 1 (repeat None (N.to_nat (room n))) []) -> F (Some a) (a :: L) R h') ->
  cwp (c_make esz off nodesz limit n) F L R h.
Proof.
  intros H1 H2. unfold c_make. destruct (N.ltb_spec limit (size_of n)) as [Hl|Hl].
  - apply cwp_done. auto.
  - apply cwp_bind, cwp_mkl. intros a h1 R1 Hc. apply cwp_apart with (a := a); [now left|]. intros Hn. apply cwp_done. auto.
Qed.
(** Filling a new block. *)
Lemma cwp_fillin a sl xs (F : post unit) L R h : cell_at h a (mkCell 1 sl []) -> good sl [] -> lenN xs <= lenN sl ->
  (forall sl' h', rely L (G ++ R) h h' -> cell_at h' a (mkCell 1 sl' []) -> good sl' xs -> lenN sl' = lenN sl ->
     F tt (a :: L) R h') ->
  cwp (c_put trivial a xs) F (a :: L) R h.
Proof.
  intros Hc Hg Hl HF. unfold c_put. apply cwp_bind. eapply cwp_ld; [exact Hc|left; now left|]. intros h1 R1.
  pose proof (rely_local _ _ _ _ _ _ R1 (in_eq _ _) Hc) as Hc1.
  destruct (ArrayProofs.construct_all_good trivial esz off nodesz limit Hesz Hoff Hnode Hnode2 Hlim xs sl [] Hg)
    as (sl' & E & Hg' & Hl'); [rewrite lenN_nil; lia|].
  rewrite lenN_nil in E. apply cwp_bind. apply (cwp_lift _ _ _ _ _ _ _ E).
  apply cwp_wr with (L' := L); [reflexivity|]. intros c h2 Hc' R2 Hc2.
  pose proof (cell_one _ _ _ _ Hc1 Hc') as <-. apply (HF sl'); [|exact Hc2|exact Hg'|exact Hl'].
  eapply rely_trans; [|exact R2]. eapply rely_incl; [apply incl_tl, incl_refl|apply incl_refl|exact R1].
Qed.
(** The outcome of making a node of [n] slots with [xs]. *)
Notation makes n xs F L R h :=
  ((limit < size_of n -> F None L R h) /\
   (forall a sl h', rely L (G ++ R) h h' -> cap_ok n -> ~ In a (G ++ R) -> cell_at h' a (mkCell 1 sl []) ->
      good sl xs -> n <= lenN sl -> F (Some a) (a :: L) R h')).
Lemma cwp_fill n xs (F : post (option nat)) L R h : no_wrap n -> lenN xs <= n -> makes n xs F L R h ->
  cwp (c_fill trivial esz off nodesz limit n xs) F L R h.
Proof.
  intros Hw Hx [H1 H2]. unfold c_fill, obind. apply cwp_bind, cwp_make; [intros Hl; apply cwp_done; auto|].
  intros a h1 Hl R1 Hn Hc. pose proof (room_ge n Hw) as Hr. apply cwp_bind.
  eapply cwp_fillin; [exact Hc|apply ArrayProofs.good_fresh|rewrite lenN_repeat; lia|].
  intros sl h2 R2 Hc2 Hg Hs. apply cwp_done. apply (H2 a sl); auto.
  - eapply rely_trans; [exact R1|exact R2].
  - now apply fits.
  - rewrite Hs, lenN_repeat. lia.
Qed.
Lemma cwp_copy n hd count xs (F : post (option nat)) L R h : no_wrap n -> count <= n -> holds h hd xs ->
  In (ptr hd) R -> count <= lenN xs -> makes n (firstn (N.to_nat count) xs) F L R h ->
  cwp (c_copy trivial esz off nodesz limit n (ptr hd) count) F L R h.
Proof.
  intros Hw Hx Hh Hi Hc0 [H1 H2]. unfold c_copy, obind. apply cwp_bind, cwp_make; [intros Hl; apply cwp_done; auto|].
  intros a h1 Hl R1 Hn Hc. pose proof (room_ge n Hw) as Hr.
  assert (Hi' : In (ptr hd) (G ++ R)) by (apply in_or_app; now right).
  pose proof (holds_rely _ _ _ _ _ _ R1 Hi' Hh) as (d & Hd & _ & (_ & Gd & _)).
  apply cwp_bind. eapply cwp_ld; [exact Hd|right; apply from_root; exact Hi'|]. intros h2 R2.
  pose proof (rely_local _ _ _ _ _ _ R2 (in_eq _ _) Hc) as Hc2.
  apply cwp_bind. eapply cwp_lift; [eapply ArrayProofs.read_n_good; [exact Gd|unfold lenN in Hc0; lia]|].
  apply cwp_bind. eapply cwp_fillin; [exact Hc2|apply ArrayProofs.good_fresh| |].
  { rewrite lenN_repeat. unfold lenN. rewrite firstn_length. lia. }
  intros sl h3 R3 Hc3 Hg Hs. apply cwp_done. apply (H2 a sl); auto.
  - eapply rely_trans; [exact R1|]. eapply rely_trans; [|exact R3].
    eapply rely_incl; [apply incl_tl, incl_refl|apply incl_refl|exact R2].
  - now apply fits.
  - rewrite Hs, lenN_repeat. lia.
Qed.

(** One element of a local block. *)
Lemma cwp_construct a c xs x (F : post unit) L R h : cell_at h a c -> good (c_body c) xs -> lenN xs < lenN (c_body c) ->
  (forall sl h', rely L (G ++ R) h h' -> cell_at h' a (mkCell (c_rc c) sl []) -> good sl (xs ++ [x]) ->
     lenN sl = lenN (c_body c) -> F tt (a :: L) R h') ->
  cwp (c_construct trivial a (lenN xs) x) F (a :: L) R h.
Proof.
  intros Hc Hg Hl HF. unfold c_construct. apply cwp_bind. eapply cwp_ld; [exact Hc|left; now left|]. intros h1 R1.
  pose proof (rely_local _ _ _ _ _ _ R1 (in_eq _ _) Hc) as Hc1.
  destruct (ArrayProofs.construct_good trivial esz off nodesz limit Hesz Hoff Hnode Hnode2 Hlim _ xs x Hg Hl)
    as (sl' & E & Hg' & Hl').
  apply cwp_bind. apply (cwp_lift _ _ _ _ _ _ _ E).
  apply cwp_wr with (L' := L); [reflexivity|]. intros d h2 Hd R2 Hc2.
  pose proof (cell_one _ _ _ _ Hc1 Hd) as <-. apply (HF sl'); [|exact Hc2|exact Hg'|exact Hl'].
  eapply rely_trans; [|exact R2]. eapply rely_incl; [apply incl_tl, incl_refl|apply incl_refl|exact R1].
Qed.
Lemma list_set_const (xs : list T) i f x : nth_error xs i = Some x -> list_set xs i f = list_set xs i (fun _ => f x).
Proof.
  intros H. apply nth_error_split in H as (a & b & -> & Hl). now rewrite !list_set_app by assumption.
Qed.
Lemma list_set_len (xs : list T) i f x : nth_error xs i = Some x -> lenN (list_set xs i f) = lenN xs.
Proof.
  intros H. apply nth_error_split in H as (a & b & -> & Hl). rewrite list_set_app by assumption.
  unfold lenN. rewrite !app_length. reflexivity.
Qed.
Lemma cwp_assign a c xs k x f (F : post unit) L R h : cell_at h a c -> good (c_body c) xs ->
  nth_error xs (N.to_nat k) = Some x ->
  (forall sl h', rely L (G ++ R) h h' -> cell_at h' a (mkCell (c_rc c) sl []) -> good sl (list_set xs (N.to_nat k) f) ->
     lenN sl = lenN (c_body c) -> F tt (a :: L) R h') ->
  cwp (c_assign a k f) F (a :: L) R h.
Proof.
  intros Hc Hg Hx HF. unfold c_assign. apply cwp_bind. eapply cwp_ld; [exact Hc|left; now left|]. intros h1 R1.
  pose proof (rely_local _ _ _ _ _ _ R1 (in_eq _ _) Hc) as Hc1.
  apply cwp_bind. eapply cwp_lift; [eapply ArrayProofs.read_good; [exact Hg|exact Hx]|].
  destruct (ArrayProofs.assign_good trivial _ xs k x (f x) Hg Hx) as (sl' & E & Hg' & Hl').
  apply cwp_bind. apply (cwp_lift _ _ _ _ _ _ _ E).
  apply cwp_wr with (L' := L); [reflexivity|]. intros d h2 Hd R2 Hc2.
  pose proof (cell_one _ _ _ _ Hc1 Hd) as <-. apply (HF sl'); [|exact Hc2| |exact Hl'].
  - eapply rely_trans; [|exact R2]. eapply rely_incl; [apply incl_tl, incl_refl|apply incl_refl|exact R1].
  - now rewrite (list_set_const _ _ f _ Hx).
Qed.

(** *** Letting go *)
Lemma destroy_all (sl : slots) xs : good sl xs -> exists sl', destroy_n trivial sl 0 (N.to_nat (lenN xs)) = Ok sl' /\
  trivial || forallb is_raw sl' = true.
Proof.
  intros (rest & -> & Hr). destruct trivial eqn:Ht.
  - exists (map Some xs ++ rest). split; [destruct (N.to_nat (lenN xs)); reflexivity|reflexivity].
  - exists (repeat None (length xs) ++ rest). split.
    + pose proof (ArrayProofs.destroy_raw trivial esz off nodesz limit Hesz Hoff Hnode Hnode2 Hlim xs Ht 0 rest) as D.
      rewrite Ht in D. cbn [repeat app Nat.add] in D. unfold lenN. rewrite Nnat.Nat2N.id. exact D.
    + cbn [orb]. rewrite forallb_app. apply andb_true_iff. split; apply forallb_forall; intros o Ho.
      * apply repeat_spec in Ho. now subst.
      * specialize (Hr eq_refl). rewrite Forall_forall in Hr. now rewrite (Hr o Ho).
Qed.
Lemma cwp_dec hd xs (F : post unit) R h : holds h hd xs ->
  (forall h', rely [] (G ++ R) h h' -> F tt [] R h') -> cwp (c_dec trivial hd) F [] (ptr hd :: R) h.
Proof.
  intros (c & Hc & Hk & Hs & Hg & _) HF. unfold c_dec. apply cwp_bind.
  apply cwp_dn with (R' := R); [reflexivity| |].
  - intros h1 R1. apply cwp_done. auto.
  - intros d h1 Hd R1 Hd1. pose proof (cell_one _ _ _ _ Hc Hd) as <-. rewrite Hk in *. cbn [app] in R1 |- *.
    unfold c_delete. apply cwp_bind. eapply cwp_ld; [exact Hd1|left; now left|]. intros h2 R2.
    destruct (destroy_all _ _ Hg) as (sl & E & Hr). cbn [c_body] in *. rewrite Hs.
    apply cwp_bind. apply (cwp_lift _ _ _ _ _ _ _ E).
    apply cwp_bind. apply cwp_wr with (L' := []); [reflexivity|]. intros d h3 _ R3 _. rewrite Hr.
    apply cwp_fr with (L' := []); [reflexivity|]. intros h4 R4. apply HF.
    eapply rely_trans; [eapply rely_less; [exact R1|apply incl_refl]|].
    eapply rely_trans; [eapply rely_less; [exact R2|apply incl_refl]|]. eapply rely_trans; [exact R3|exact R4].
Qed.

(** *** Persistent functions *)
(** A new variable that holds [ys]. *)
Notation newvar ys F L R h := (forall hd h', rely L (G ++ R) h h' -> holds h' hd ys -> ~ In (ptr hd) (G ++ R) ->
  F (Some hd) L (ptr hd :: R) h').
Lemma cwp_give hd c ys (F : post (option handle)) L R h : cell_at h (ptr hd) c -> c_rc c = 1%nat -> c_kids c = [] ->
  fitting hd (c_body c) ys -> (holds h hd ys -> F (Some hd) L (ptr hd :: R) h) ->
  cwp (Done (Some hd)) F (ptr hd :: L) R h.
Proof.
  intros Hc E1 Hk Hf HF. eapply cwp_put with (L' := L) (R' := R); [reflexivity|exact Hc|exact E1|rewrite Hk; reflexivity|].
  apply cwp_done, HF. exists c. auto.
Qed.
Lemma firstn_all_N (xs : list T) : firstn (N.to_nat (lenN xs)) xs = xs.
Proof. unfold lenN. rewrite Nnat.Nat2N.id. apply firstn_all. Qed.

Lemma cwp_push hd xs x (F : post (option handle)) L R h : holds h hd xs -> In (ptr hd) R ->
  F None L R h -> newvar (xs ++ [x]) F L R h -> cwp (c_push trivial esz off nodesz limit hd x) F L R h.
Proof.
  intros Hh Hi H1 H2. pose proof Hh as (c & Hc & Hk & Hs & Hg & Hcl & Hsc & Hok).
  pose proof (ArrayProofs.cap_small esz off nodesz limit Hesz Hoff Hnode Hnode2 Hlim _ Hok) as Hsm.
  unfold c_push. rewrite (w64_small (hsize hd + 1)) by lia.
  destruct (ArrayProofs.recommend_up_ok esz off nodesz limit Hesz Hoff Hnode Hnode2 Hlim (hsize hd + 1) (hcap hd) Hok)
    as (Hu1 & _ & _ & Hu4); [lia|]. set (cap := recommend_up (hsize hd + 1) (hcap hd)) in *.
  unfold obind. apply cwp_bind. eapply (cwp_copy cap hd (hsize hd) xs); [exact Hu4|lia|exact Hh|exact Hi|lia|]. split.
  - intros _. apply cwp_done, H1.
  - intros a sl h1 R1 Ha Hn Hc1 Hg1 Hl1. rewrite Hs, firstn_all_N in Hg1. apply cwp_bind. rewrite Hs.
    eapply cwp_construct; [exact Hc1|exact Hg1|cbn [c_body]; lia|]. intros sl2 h2 R2 Hc2 Hg2 Hl2. cbn [c_body c_rc] in *.
    set (hd' := mkHandle a (lenN xs + 1) cap).
    eapply (cwp_give hd' _ (xs ++ [x])); [exact Hc2|reflexivity|reflexivity| |].
    + unfold fitting, hd'. cbn [hsize hcap c_body]. rewrite lenN_app, lenN_cons, lenN_nil. repeat split; auto; lia.
    + intros Hh'. apply H2; [eapply rely_trans; [exact R1|exact R2]|exact Hh'|exact Hn].
Qed.
Lemma nth_some (xs : list T) k : k < lenN xs -> exists x, nth_error xs (N.to_nat k) = Some x.
Proof.
  intros H. destruct (nth_error xs (N.to_nat k)) as [x|] eqn:E; [eauto|]. apply nth_error_None in E. unfold lenN in H. lia.
Qed.
Lemma cwp_update hd xs k f (F : post (option handle)) L R h : holds h hd xs -> In (ptr hd) R -> k < lenN xs ->
  newvar (list_set xs (N.to_nat k) f) F L R h -> cwp (c_update trivial esz off nodesz limit hd k f) F L R h.
Proof.
  intros Hh Hi Hk0 H2. pose proof Hh as (c & Hc & Hk & Hs & Hg & Hcl & Hsc & Hok).
  destruct (nth_some _ _ Hk0) as (x & Hx). destruct (fits_le (hcap hd) (hcap hd) Hok) as [Hw Hf]; [lia|].
  unfold c_update, obind. apply cwp_bind. eapply (cwp_copy (hcap hd) hd (hsize hd) xs); [exact Hw|lia|exact Hh|exact Hi|lia|]. split.
  - intros X. contradiction.
  - intros a sl h1 R1 Ha Hn Hc1 Hg1 Hl1. rewrite Hs, firstn_all_N in Hg1. apply cwp_bind.
    eapply cwp_assign; [exact Hc1|exact Hg1|exact Hx|]. intros sl2 h2 R2 Hc2 Hg2 Hl2. cbn [c_body c_rc] in *.
    set (hd' := mkHandle a (hsize hd) (hcap hd)).
    eapply (cwp_give hd' _ (list_set xs (N.to_nat k) f)); [exact Hc2|reflexivity|reflexivity| |].
    + unfold fitting, hd'. cbn [hsize hcap c_body]. rewrite (list_set_len _ _ f _ Hx). repeat split; auto; lia.
    + intros Hh'. apply H2; [eapply rely_trans; [exact R1|exact R2]|exact Hh'|exact Hn].
Qed.
Lemma cwp_take hd xs n (F : post (option handle)) L R h : holds h hd xs -> In (ptr hd) R -> n <= lenN xs ->
  newvar (firstn (N.to_nat n) xs) F L R h -> cwp (c_take trivial esz off nodesz limit hd n) F L R h.
Proof.
  intros Hh Hi Hn0 H2. pose proof Hh as (c & Hc & Hk & Hs & Hg & Hcl & Hsc & Hok).
  destruct (ArrayProofs.recommend_down_ok esz off nodesz limit Hesz Hoff Hnode Hnode2 Hlim n (hcap hd) Hok) as [Hd1 Hd2]; [lia|].
  assert (Hd3 : recommend_down n (hcap hd) <= N.max (hcap hd) 1).
  { unfold recommend_down. destruct (n =? 0); [lia|]. destruct (N.ltb_spec n (hcap hd / 2)) as [Hx|Hx]; [|lia].
    assert (Hd : 2 * (hcap hd / 2) <= hcap hd) by (apply N.mul_div_le; lia).
    pose proof (ArrayProofs.cap_small esz off nodesz limit Hesz Hoff Hnode Hnode2 Hlim _ Hok) as Hsm.
    rewrite w64_small; clear -Hx Hd Hsm; lia. }
  unfold c_take. cbv zeta. set (cap := recommend_down n (hcap hd)) in *.
  destruct (fits_le cap (hcap hd) Hok Hd3) as [Hw Hf].
  unfold obind. apply cwp_bind. eapply (cwp_copy cap hd n xs); [exact Hw|exact Hd1|exact Hh|exact Hi|exact Hn0|]. split.
  - intros X. contradiction.
  - intros a sl h1 R1 Ha Hn Hc1 Hg1 Hl1. set (hd' := mkHandle a n cap).
    eapply (cwp_give hd' _ (firstn (N.to_nat n) xs)); [exact Hc1|reflexivity|reflexivity| |].
    + unfold fitting, hd'. cbn [hsize hcap c_body]. repeat split; auto. unfold lenN in *. rewrite firstn_length. lia.
    + intros Hh'. apply H2; [exact R1|exact Hh'|exact Hn].
Qed.
Lemma cwp_from n xs (F : post (option handle)) L R h : no_wrap n -> lenN xs = n ->
  (limit < size_of n -> F None L R h) -> newvar xs F L R h ->
  cwp (obind (c_fill trivial esz off nodesz limit n xs) (fun p => Done (Some (mkHandle p n n)))) F L R h.
Proof.
  intros Hw Hn H1 H2. unfold obind. apply cwp_bind, cwp_fill; [exact Hw|lia|]. split.
  - intros Hl. apply cwp_done. auto.
  - intros a sl h1 R1 Ha Hf Hc1 Hg1 Hl1. set (hd' := mkHandle a n n).
    eapply (cwp_give hd' _ xs); [exact Hc1|reflexivity|reflexivity| |].
    + unfold fitting, hd'. cbn [hsize hcap c_body]. repeat split; auto; lia.
    + intros Hh'. apply H2; [exact R1|exact Hh'|exact Hf].
Qed.

(** *** Functions in place *)
(** The variable [hd] now holds [ys]; or nothing has changed. *)
Notation changed ys F R h := (forall hd h', rely [] (G ++ R) h h' -> holds h' hd ys -> ~ In (ptr hd) (G ++ R) ->
  F (Some hd) [] (ptr hd :: R) h').
Lemma cwp_replace hd xs hd' ys (F : post (option handle)) R h : holds h hd xs -> holds h hd' ys ->
  ~ In (ptr hd') (G ++ ptr hd :: R) -> changed ys F R h -> cwp (c_replace trivial hd hd') F [] (ptr hd' :: ptr hd :: R) h.
Proof.
  intros Hh Hh' Hn HF. unfold c_replace. apply cwp_roots with (R' := ptr hd :: ptr hd' :: R); [intros x; cbn [occ]; lia|].
  apply cwp_bind. eapply cwp_dec; [exact Hh|]. intros h1 R1. apply cwp_done. apply HF.
  - eapply rely_less; [exact R1|apply incl_tl, incl_refl].
  - eapply holds_rely; [exact R1| |exact Hh']. apply in_or_app. right. now left.
  - intros Hx. apply Hn. apply in_app_or in Hx as [Hx|Hx]; apply in_or_app; [now left|right; now right].
Qed.
(** The second half of a function in place: a new node, and the old one goes. *)
Lemma after_new (p : prog slots (option handle)) hd xs ys (F : post (option handle)) R h : holds h hd xs ->
  (forall Q : post (option handle), (forall h', h' = h -> Q None [] (ptr hd :: R) h') ->
     newvar ys Q [] (ptr hd :: R) h -> cwp p Q [] (ptr hd :: R) h) ->
  F None [] (ptr hd :: R) h -> changed ys F R h -> cwp (obind p (c_replace trivial hd)) F [] (ptr hd :: R) h.
Proof.
  intros Hh Hp H1 H2. unfold obind. apply cwp_bind. apply Hp.
  - intros h' ->. apply cwp_done, H1.
  - intros hd' h1 R1 Hh1 Hn. eapply cwp_replace; [|exact Hh1|exact Hn|].
    + eapply holds_rely; [exact R1| |exact Hh]. apply in_or_app. right. now left.
    + intros hd2 h2 R2 Hh2 Hn2. apply H2; auto. eapply rely_trans; [|exact R2].
      eapply rely_less; [exact R1|apply incl_tl, incl_refl].
Qed.
(** The question whether the node is the only one. *)
Lemma cwp_ask hd xs (F : post bool) R h : holds h hd xs ->
  (forall h', rely [] (G ++ ptr hd :: R) h h' -> holds h' hd xs -> F false [] (ptr hd :: R) h') ->
  (forall c h', rely [ptr hd] (G ++ R) h h' -> cell_at h' (ptr hd) c -> c_rc c = 1%nat -> c_kids c = [] ->
     fitting hd (c_body c) xs -> F true [ptr hd] R h') ->
  cwp (uq (ptr hd)) F [] (ptr hd :: R) h.
Proof.
  intros Hh H1 H2. apply cwp_uq with (R' := R); [reflexivity| |].
  - intros h1 R1. apply H1; [exact R1|]. eapply holds_rely; [exact R1| |exact Hh]. apply in_or_app. right. now left.
  - intros c h1 Hc E1 R1. destruct Hh as (d & Hd & Hk & Hf). pose proof (cell_one _ _ _ _ Hd Hc) as <-.
    rewrite Hk in *. cbn [app] in *. apply (H2 d); [exact R1| |exact E1|exact Hk|exact Hf].
    eapply rely_local; [exact R1|now left|exact Hd].
Qed.

(** What is known when a statement that changes [hd] in place throws. *)
Notation unchanged xs F hd R h := (forall h', rely [] (G ++ R) h h' -> holds h' hd xs -> F None [] (ptr hd :: R) h').
Lemma cwp_push_mut hd xs x (F : post (option handle)) R h : holds h hd xs ->
  unchanged xs F hd R h -> changed (xs ++ [x]) F R h ->
  cwp (c_push_mut trivial esz off nodesz limit hd x) F [] (ptr hd :: R) h.
Proof.
  intros Hh H1 H2.
  assert (New : forall h', rely [] (G ++ R) h h' -> holds h' hd xs ->
    cwp (obind (c_push trivial esz off nodesz limit hd x) (c_replace trivial hd)) F [] (ptr hd :: R) h').
  { intros h1 R1 Hh1. eapply after_new; [exact Hh1| |now apply H1|].
    - intros Q Q1 Q2. eapply cwp_push; [exact Hh1|now left|now apply Q1|exact Q2].
    - intros hd2 h2 R2 Hh2 Hn2. apply H2; auto. eapply rely_trans; [exact R1|exact R2]. }
  unfold c_push_mut. apply cwp_bind. eapply cwp_ask; [exact Hh| |].
  - intros h1 R1 Hh1. cbn [andb]. apply New; [|exact Hh1]. eapply rely_less; [exact R1|apply incl_tl, incl_refl].
  - intros c h1 R1 Hc E1 Hk (Hs & Hg & Hcl & Hsc & Hok). cbn [andb]. destruct (N.ltb_spec (hsize hd) (hcap hd)) as [Hlt|Hge].
    + apply cwp_apart with (a := ptr hd); [now left|]. intros Hn. apply cwp_bind. rewrite Hs.
      eapply cwp_construct; [exact Hc|exact Hg|lia|]. intros sl h2 R2 Hc2 Hg2 Hl2. cbn [c_body c_rc] in *.
      pose proof (ArrayProofs.cap_small esz off nodesz limit Hesz Hoff Hnode Hnode2 Hlim _ Hok) as Hsm.
      rewrite (w64_small (lenN xs + 1)) by lia. set (hd' := mkHandle (ptr hd) (lenN xs + 1) (hcap hd)).
      eapply (cwp_give hd' _ (xs ++ [x])); [exact Hc2|exact E1|reflexivity| |].
      * unfold fitting, hd'. cbn [hsize hcap c_body]. rewrite lenN_app, lenN_cons, lenN_nil. repeat split; auto; lia.
      * intros Hh'. apply H2; [|exact Hh'|exact Hn]. eapply rely_trans; [|exact R2].
        eapply rely_less; [exact R1|apply incl_refl].
    + eapply cwp_put with (L' := []) (R' := R); [reflexivity|exact Hc|exact E1|rewrite Hk; reflexivity|].
      apply New; [eapply rely_less; [exact R1|apply incl_refl]|]. exists c. unfold fitting. auto 8.
Qed.
Lemma cwp_update_mut hd xs k f (F : post (option handle)) R h : holds h hd xs -> k < lenN xs ->
  changed (list_set xs (N.to_nat k) f) F R h ->
  cwp (c_update_mut trivial esz off nodesz limit hd k f) F [] (ptr hd :: R) h.
Proof.
  intros Hh Hk0 H2. destruct (nth_some _ _ Hk0) as (x & Hx).
  unfold c_update_mut. apply cwp_bind. eapply cwp_ask; [exact Hh| |].
  - intros h1 R1 Hh1. unfold obind. apply cwp_bind. eapply cwp_update; [exact Hh1|now left|exact Hk0|].
    intros hd' h2 R2 Hh2 Hn. eapply cwp_replace; [|exact Hh2|exact Hn|].
    + eapply holds_rely; [exact R2| |exact Hh1]. apply in_or_app. right. now left.
    + intros hd3 h3 R3 Hh3 Hn3. apply H2; auto. eapply rely_trans; [|exact R3].
      eapply rely_less; [|apply incl_tl, incl_refl]. eapply rely_trans; [exact R1|exact R2].
  - intros c h1 R1 Hc E1 Hk (Hs & Hg & Hcl & Hsc & Hok).
    apply cwp_apart with (a := ptr hd); [now left|]. intros Hn. apply cwp_bind.
    eapply cwp_assign; [exact Hc|exact Hg|exact Hx|]. intros sl h2 R2 Hc2 Hg2 Hl2. cbn [c_body c_rc] in *.
    eapply (cwp_give hd _ (list_set xs (N.to_nat k) f)); [exact Hc2|exact E1|reflexivity| |].
    + unfold fitting. cbn [c_body]. rewrite (list_set_len _ _ f _ Hx). repeat split; auto; lia.
    + intros Hh'. apply H2; [|exact Hh'|exact Hn]. eapply rely_trans; [|exact R2].
      eapply rely_less; [exact R1|apply incl_refl].
Qed.
Lemma cwp_take_mut hd xs n (F : post (option handle)) R h : holds h hd xs -> n <= lenN xs ->
  trivial = true \/ n = lenN xs -> changed (firstn (N.to_nat n) xs) F R h ->
  cwp (c_take_mut trivial esz off nodesz limit hd n) F [] (ptr hd :: R) h.
Proof.
  intros Hh Hn0 Ht H2. unfold c_take_mut. apply cwp_bind. eapply cwp_ask; [exact Hh| |].
  - intros h1 R1 Hh1. unfold obind. apply cwp_bind. eapply cwp_take; [exact Hh1|now left|exact Hn0|].
    intros hd' h2 R2 Hh2 Hn. eapply cwp_replace; [|exact Hh2|exact Hn|].
    + eapply holds_rely; [exact R2| |exact Hh1]. apply in_or_app. right. now left.
    + intros hd3 h3 R3 Hh3 Hn3. apply H2; auto. eapply rely_trans; [|exact R3].
      eapply rely_less; [|apply incl_tl, incl_refl]. eapply rely_trans; [exact R1|exact R2].
  - intros c h1 R1 Hc E1 Hk (Hs & Hg & Hcl & Hsc & Hok).
    apply cwp_apart with (a := ptr hd); [now left|]. intros Hn.
    apply cwp_bind. eapply cwp_ld; [exact Hc|left; now left|]. intros h2 R2.
    pose proof (rely_local _ _ _ _ _ _ R2 (in_eq _ _) Hc) as Hc2.
    assert (Hde : destroy_n trivial (c_body c) (hsize hd) (N.to_nat (w64 (hsize hd + 2^64 - n))) = Ok (c_body c)).
    { destruct Ht as [->| ->]; [generalize (N.to_nat (w64 (hsize hd + 2^64 - n))); intros [|m]; reflexivity|]. rewrite Hs.
      replace (lenN xs + 2^64 - lenN xs) with (2^64) by lia. change (w64 (2^64)) with 0. cbn. now destruct trivial. }
    apply cwp_bind. apply (cwp_lift _ _ _ _ _ _ _ Hde).
    apply cwp_bind. apply cwp_wr with (L' := []); [reflexivity|]. intros d h3 Hd R3 Hc3.
    pose proof (cell_one _ _ _ _ Hc2 Hd) as <-. set (hd' := mkHandle (ptr hd) n (hcap hd)).
    eapply (cwp_give hd' _ (firstn (N.to_nat n) xs)); [exact Hc3|exact E1|reflexivity| |].
    + unfold fitting, hd'. cbn [hsize hcap c_body]. split; [unfold lenN in *; rewrite firstn_length; lia|].
      split; [|repeat split; auto; lia]. destruct Hg as (rest & Eb & Hr).
      exists (map Some (skipn (N.to_nat n) xs) ++ rest). split.
      * rewrite app_assoc, <- map_app, firstn_skipn. exact Eb.
      * intros Hf. destruct Ht as [Ht| ->]; [congruence|]. unfold lenN. rewrite Nnat.Nat2N.id, skipn_all. exact (Hr Hf).
    + intros Hh'. apply H2; [|exact Hh'|exact Hn]. eapply rely_trans; [|exact R3].
      eapply rely_trans; eapply rely_less; [exact R1|apply incl_refl|exact R2|apply incl_refl].
Qed.

(** *** Looking *)
Lemma cwp_get_check hd xs k (F : post (option T)) R h : holds h hd xs -> In (ptr hd) R ->
  (forall h', rely [] (G ++ R) h h' -> F (nth_error xs (N.to_nat k)) [] R h') -> cwp (c_get_check hd k) F [] R h.
Proof.
  intros (c & Hc & Hk & Hs & Hg & _) Hi HF. unfold c_get_check. destruct (N.leb_spec (hsize hd) k) as [Hl|Hl].
  - apply cwp_done. rewrite <- (proj2 (nth_error_None xs (N.to_nat k))) by (unfold lenN in Hs; lia). apply HF, rely_refl.
  - apply cwp_bind. eapply cwp_ld; [exact Hc|right; apply from_root, in_or_app; now right|]. intros h1 R1.
    destruct (nth_some xs k) as (x & Hx); [lia|]. apply cwp_bind. eapply cwp_lift; [eapply ArrayProofs.read_good; [exact Hg|exact Hx]|].
    apply cwp_done. rewrite <- Hx. auto.
Qed.
Lemma same_refl xs : same_list teq xs xs = true.
Proof. induction xs as [|x xs IH]; cbn; [reflexivity|]. now rewrite teq_refl, IH. Qed.
Lemma same_len xs : forall ys, lenN xs <> lenN ys -> same_list teq xs ys = false.
Proof.
  induction xs as [|x xs IH]; intros [|y ys] H; cbn; try reflexivity; [easy|].
  rewrite !lenN_cons in H. rewrite IH by lia. apply andb_false_r.
Qed.
Lemma equal_n_ok xs : forall ys sl sl', good sl xs -> good sl' ys -> length xs = length ys ->
  equal_n teq (length xs) sl sl' = Ok (same_list teq xs ys).
Proof.
  intros ys sl sl' (r & -> & _) (r' & -> & _). revert ys.
  induction xs as [|x xs IH]; intros [|y ys] H; try discriminate; [reflexivity|]. cbn [length] in H.
  cbn. destruct (teq x y); [|reflexivity]. apply IH. lia.
Qed.
Lemma cwp_equals hd xs hd' ys (F : post bool) R h : holds h hd xs -> holds h hd' ys -> In (ptr hd) R -> In (ptr hd') R ->
  (ptr hd = ptr hd' -> hd = hd') ->
  (forall h', rely [] (G ++ R) h h' -> F (same_list teq xs ys) [] R h') -> cwp (c_equals teq hd hd') F [] R h.
Proof.
  intros Hh Hh' Hi Hi' Ht HF. unfold c_equals. destruct (Nat.eqb_spec (ptr hd) (ptr hd')) as [E|E].
  - specialize (Ht E). subst hd'. apply cwp_done.
    assert (xs = ys) as ->.
    { destruct Hh as (c & Hc & _ & Hs & (r & E1 & _) & _), Hh' as (d & Hd & _ & Hs' & (r' & E2 & _) & _).
      pose proof (cell_one _ _ _ _ Hc Hd) as <-. rewrite E1 in E2.
      assert (Hl : length xs = length ys) by (unfold lenN in *; lia). clear -E2 Hl. revert ys Hl E2.
      induction xs as [|x xs IH]; intros [|y ys] Hl E2; try discriminate; [reflexivity|]. cbn in *.
      injection E2 as -> E2. f_equal. apply IH; [lia|exact E2]. }
    rewrite <- (same_refl ys). apply HF, rely_refl.
  - pose proof Hh as (c & Hc & _ & Hs & Hg & _). pose proof Hh' as (c' & Hc' & _ & Hs' & Hg' & _).
    destruct (N.eqb_spec (hsize hd) (hsize hd')) as [El|El].
    + apply cwp_bind. eapply cwp_ld; [exact Hc|right; apply from_root, in_or_app; now right|]. intros h1 R1.
      destruct (holds_rely _ _ _ _ _ _ R1 (in_or_app _ _ _ (or_intror Hi')) Hh') as (d & Hd & _ & _ & Hg2 & _).
      apply cwp_bind. eapply cwp_ld; [exact Hd|right; apply from_root, in_or_app; now right|]. intros h2 R2.
      eapply cwp_lift; [|apply HF; eapply rely_trans; [exact R1|exact R2]].
      rewrite Hs. unfold lenN. rewrite Nnat.Nat2N.id. apply equal_n_ok; [exact Hg|exact Hg2|unfold lenN in *; lia].
    + apply cwp_done. rewrite <- (same_len xs ys) by congruence. apply HF, rely_refl.
Qed.
(** *** Programs *)
Notation hvars := (list (option handle)).
Definition ptrs (x : option handle) : list nat := match x with Some hd => [ptr hd] | None => [] end.
Definition roots (l : hvars) : list nat := flat_map ptrs l.
Definition rest (i : nat) (l : hvars) : list nat := roots (update_at i None l).
Lemma roots_upd l : forall i x y a, nth_error l i = Some x ->
  (occ a (roots (update_at i y l)) + occ a (ptrs x) = occ a (roots l) + occ a (ptrs y))%nat.
Proof.
  induction l as [|z l IH]; intros [|i] x y a H; cbn in *; try discriminate; rewrite ?occ_app.
  - injection H as ->. lia.
  - specialize (IH _ _ y a H). unfold roots in IH. lia.
Qed.
Lemma roots_app l x : roots (l ++ [x]) = roots l ++ ptrs x.
Proof. unfold roots. rewrite flat_map_app. cbn. now rewrite app_nil_r. Qed.
Lemma roots_rest l i x : nth_error l i = Some x -> forall a, occ a (roots l) = occ a (ptrs x ++ rest i l).
Proof.
  intros H a. pose proof (roots_upd l i x None a H) as E. cbn [ptrs occ] in E. rewrite occ_app. unfold rest. lia.
Qed.
Lemma rest_roots l i x y : nth_error l i = Some x -> forall a,
  occ a (ptrs y ++ rest i l) = occ a (roots (update_at i y l)).
Proof.
  intros H a. pose proof (roots_upd l i x None a H) as E1. pose proof (roots_upd l i x y a H) as E2.
  cbn [ptrs occ] in E1. rewrite occ_app. unfold rest. lia.
Qed.
Lemma rest_in l i x : nth_error l i = Some x -> incl (rest i l) (roots l).
Proof.
  intros H a Hi. apply occ_in. apply occ_in in Hi. rewrite (roots_rest _ _ _ H), occ_app. lia.
Qed.
Lemma upd_in i (y x : option handle) l : In x (update_at i y l) -> x = y \/ In x (update_at i None l).
Proof.
  revert i. induction l as [|z l IH]; intros [|i]; cbn; try easy; intuition.
  destruct (IH i) as [E|E]; auto.
Qed.
Lemma upd_old i (x : option handle) l : In x (update_at i None l) -> x = None \/ In x l.
Proof.
  revert i. induction l as [|z l IH]; intros [|i]; cbn; try easy; intuition.
  destruct (IH i) as [E|E]; auto.
Qed.
Lemma upd_twice {A} (x y : A) l : forall i, update_at i x (update_at i y l) = update_at i x l.
Proof. induction l as [|z l IH]; intros [|i]; cbn; congruence. Qed.
Lemma at_root l i hd : nth_error l i = Some (Some hd) -> In (ptr hd) (roots l).
Proof. intros E. apply nth_error_In in E. apply in_flat_map. eexists. split; [exact E|now left]. Qed.

(** Variables with the same node have the same size and capacity. *)
Definition known (l : hvars) (hd : handle) : Prop := hd = c_empty \/ In (Some hd) l.
Definition twins (l : hvars) : Prop := forall x y, known l x -> known l y -> ptr x = ptr y -> x = y.
Definition joins (l : hvars) (hd : handle) : Prop := ~ In (ptr hd) (G ++ roots l) \/ known l hd.
Lemma known_root l hd : known l hd -> In (ptr hd) (G ++ roots l).
Proof.
  intros [->|H]; apply in_or_app; [left; now left|right]. apply in_flat_map. eexists. split; [exact H|now left].
Qed.
Lemma twins_sub l l' : (forall hd, known l' hd -> known l hd) -> twins l -> twins l'.
Proof. intros H K x y Hx Hy. apply K; auto. Qed.
Lemma known_app l hd x : known (l ++ [Some hd]) x -> known l x \/ x = hd.
Proof.
  intros [->|H]; [left; now left|]. apply in_app_or in H as [H|[H|[]]]; [left; now right|right; congruence].
Qed.
Lemma twins_add l hd : twins l -> joins l hd -> twins (l ++ [Some hd]).
Proof.
  intros H [Hn|Hk] x y Hx Hy E; apply known_app in Hx, Hy.
  - destruct Hx as [Hx| ->], Hy as [Hy| ->]; try reflexivity; [now apply H| |]; exfalso; apply Hn.
    + rewrite <- E. now apply known_root.
    + rewrite E. now apply known_root.
  - apply H; [| |exact E]; [destruct Hx as [Hx| ->]; auto|destruct Hy as [Hy| ->]; auto].
Qed.
Lemma twins_set l i hd : twins l -> joins (update_at i None l) hd -> twins (update_at i (Some hd) l).
Proof.
  intros H J. apply (twins_sub (update_at i None l ++ [Some hd])).
  - intros x [->|Hx]; [now left|]. apply upd_in in Hx as [E|Hx]; right; apply in_or_app; [right; left; congruence|now left].
  - apply twins_add; [|exact J]. eapply twins_sub; [|exact H]. intros x [->|Hx]; [now left|].
    apply upd_old in Hx as [Hx|Hx]; [discriminate|now right].
Qed.

Definition vval (h : heap) (x : option handle) (y : option (list T)) : Prop :=
  match x, y with Some hd, Some xs => holds h hd xs | None, None => True | _, _ => False end.
Notation vv h l s := (Forall2 (vval h) l s).
Definition tinv (h : heap) (l : hvars) (vs : vals T) : Prop := vv h l vs /\ twins l /\ holds h c_empty [].
Lemma vv_rely R (h h' : heap) l s : rely [] (G ++ R) h h' -> incl (roots l) R -> vv h l s -> vv h' l s.
Proof.
  intros Rl Hi H. induction H as [|x y l s Hx _ IH]; constructor.
  - destruct x as [hd|], y as [xs|]; try exact Hx. eapply holds_rely; [exact Rl| |exact Hx].
    apply in_or_app. right. apply Hi. cbn. now left.
  - apply IH. intros a Ha. apply Hi. cbn. apply in_or_app. now right.
Qed.
Lemma vv_upd h l s x y : vval h x y -> vv h l s -> forall i, vv h (update_at i x l) (update_at i y s).
Proof. intros Hx H. induction H as [|a b l s Ha Hl IH]; intros [|i]; cbn; constructor; auto. Qed.
Lemma vv_at h l s i : vv h l s -> alive s i -> exists hd, nth_error l i = Some (Some hd) /\ holds h hd (val s i).
Proof.
  intros H. unfold alive, val. revert i. induction H as [|x y l s Hx _ IH]; intros [|i] [xs E]; cbn in *; try discriminate.
  - injection E as ->. destruct x as [hd|]; [eauto|contradiction].
  - apply IH. eauto.
Qed.
Lemma empty_rely R (h h' : heap) : rely [] (G ++ R) h h' -> holds h c_empty [] -> holds h' c_empty [].
Proof. intros Rl. eapply holds_rely; [exact Rl|]. now left. Qed.
Lemma tinv_rely (h h' : heap) l vs : rely [] (G ++ roots l) h h' -> tinv h l vs -> tinv h' l vs.
Proof.
  intros Rl (H1 & H2 & H3). split; [eapply vv_rely; [exact Rl|apply incl_refl|exact H1]|]. split; [exact H2|].
  eapply empty_rely; [exact Rl|exact H3].
Qed.

Lemma cwp_var {A} (k : handle -> prog slots A) l i hd (F : post A) L R h : nth_error l i = Some (Some hd) ->
  cwp (k hd) F L R h -> cwp (pbind (c_var l i) k) F L R h.
Proof. intros E H. unfold c_var. rewrite E. exact H. Qed.
Lemma cwp_copied l hd xs (F : post (option handle)) h : holds h hd xs -> known l hd ->
  (forall h', rely [] (G ++ roots l) h h' -> holds h' hd xs -> F (Some hd) [] (ptr hd :: roots l) h') ->
  cwp (c_copied hd) F [] (roots l) h.
Proof.
  intros Hh Hk HF. apply known_root in Hk. unfold c_copied. apply cwp_bind, cwp_up; [now apply from_root|].
  intros h1 R1. apply cwp_done. apply HF; [exact R1|]. eapply holds_rely; [exact R1|exact Hk|exact Hh].
Qed.

Notation aspec := (aspec esz off limit teq).
Notation c_step := (c_step trivial esz off nodesz limit teq c_empty).
Definition stepped (vs : vals T) (o : aop T) : post (hvars * aobs T) := fun r L R h =>
  L = [] /\ R = roots (fst r) /\ exists vs', aspec vs o (snd r) vs' /\ tinv h (fst r) vs'.
Lemma size_throw n : no_wrap n -> limit < size_of n -> limit < off + esz * n.
Proof. intros W. rewrite (ArrayProofs.sizeof_no_wrap esz off nodesz n W). lia. Qed.

Lemma cwp_step l vs o h : tinv h l vs -> avalid esz off trivial vs o -> cwp (c_step l o) (stepped vs o) [] (roots l) h.
Proof.
  intros HI HV. pose proof HI as (H & HT & HE).
  assert (Same : forall y h', rely [] (G ++ roots l) h h' -> aspec vs o y vs -> stepped vs o (l, y) [] (roots l) h').
  { intros y h' Rl Hs. repeat split. exists vs. split; [exact Hs|]. cbn [fst]. eapply tinv_rely; [exact Rl|exact HI]. }
  assert (Fresh : forall p ys m, o = AMod m -> spec vs m = vs ++ [Some ys] ->
    cwp p (fun r L R h' => L = [] /\ rely [] (G ++ roots l) h h' /\ match r with
      | Some hd => R = ptr hd :: roots l /\ holds h' hd ys /\ joins l hd
      | None => R = roots l /\ may_throw esz off limit m end) [] (roots l) h ->
    cwp (pbind p (fun r => match r with Some hd => Done (l ++ [Some hd], ODone) | None => Done (l, OThrew) end))
      (stepped vs o) [] (roots l) h).
  { intros p ys m -> Em Hp. apply cwp_bind. eapply cwp_mono; [|exact Hp].
    intros [hd|] L R h1 (-> & R1 & Hr).
    - destruct Hr as (-> & Hh & J). apply cwp_roots with (R' := roots (l ++ [Some hd])).
      { intros a. rewrite roots_app, occ_app. cbn [occ ptrs]. lia. }
      apply cwp_done. repeat split. exists (vs ++ [Some ys]). cbn [fst snd]. split; [rewrite <- Em; constructor|].
      destruct (tinv_rely _ _ _ _ R1 HI) as (H1 & H2 & H3). split; [|split; [now apply twins_add|exact H3]].
      apply Forall2_app; [exact H1|]. constructor; [exact Hh|constructor].
    - destruct Hr as (-> & Ht). apply cwp_done. apply Same; [exact R1|]. now constructor. }
  assert (Set' : forall i x0 z w m h' R, o = AMod m -> spec vs m = update_at i w vs -> nth_error l i = Some x0 ->
    rely [] (G ++ rest i l) h h' -> vval h' z w -> (forall hd, z = Some hd -> joins (update_at i None l) hd) ->
    (forall a, occ a R = occ a (ptrs z ++ rest i l)) ->
    cwp (Done (update_at i z l, ODone)) (stepped vs o) [] R h').
  { intros i x0 z w m h' R -> Em En Rl Hz HJ HO. apply cwp_roots with (R' := roots (update_at i z l)).
    { intros a. rewrite HO. exact (rest_roots l i _ z En a). }
    apply cwp_done. repeat split. exists (update_at i w vs). cbn [fst snd]. split; [rewrite <- Em; constructor|].
    split; [|split].
    - assert (vv h' (update_at i None l) (update_at i None vs)) as H1.
      { eapply vv_rely; [exact Rl|apply incl_refl|]. apply vv_upd; [exact I|exact H]. }
      apply (vv_upd _ _ _ _ _ Hz) with (i := i) in H1. now rewrite !upd_twice in H1.
    - destruct z as [hd|]; [apply twins_set; [exact HT|now apply HJ]|]. eapply twins_sub; [|exact HT].
      intros x [->|Hx]; [now left|]. apply upd_old in Hx as [Hx|Hx]; [discriminate|now right].
    - eapply empty_rely; [exact Rl|exact HE]. }
  assert (InPlace : forall i hd p ys m, o = AMod m -> spec vs m = update_at i (Some ys) vs -> nth_error l i = Some (Some hd) ->
    cwp p (fun r L R h' => L = [] /\ rely [] (G ++ rest i l) h h' /\ match r with
      | Some hd' => R = ptr hd' :: rest i l /\ holds h' hd' ys /\ ~ In (ptr hd') (G ++ rest i l)
      | None => R = ptr hd :: rest i l /\ holds h' hd (val vs i) /\ may_throw esz off limit m end) [] (ptr hd :: rest i l) h ->
    cwp (pbind p (fun r => match r with Some hd' => Done (update_at i (Some hd') l, ODone) | None => Done (l, OThrew) end))
      (stepped vs o) [] (roots l) h).
  { intros i hd p ys m Eo Em En Hp. apply cwp_roots with (R' := ptr hd :: rest i l); [exact (roots_rest _ _ _ En)|].
    apply cwp_bind. eapply cwp_mono; [|exact Hp]. intros [hd'|] L R h1 (-> & R1 & Hr).
    - destruct Hr as (-> & Hh & Hn). eapply (Set' i _ (Some hd') (Some ys)); [exact Eo|exact Em|exact En|exact R1|exact Hh| |reflexivity].
      intros x Ex. injection Ex as <-. left. exact Hn.
    - destruct Hr as (-> & Hh & Ht). apply cwp_roots with (R' := roots l); [intros a; symmetry; exact (roots_rest _ _ _ En a)|].
      apply cwp_done. repeat split. exists vs. subst o. cbn [fst snd]. split; [now constructor|].
      split; [|split; [exact HT|eapply empty_rely; [exact R1|exact HE]]].
      assert (vv h1 (update_at i None l) (update_at i None vs)) as H1.
      { eapply vv_rely; [exact R1|apply incl_refl|]. apply vv_upd; [exact I|exact H]. }
      destruct (nth_error vs i) as [y|] eqn:Ey.
      + assert (y = Some (val vs i)) as ->.
        { unfold val. rewrite Ey. clear -H En Ey. revert i En Ey.
          induction H as [|x z l s Hx _ IH]; intros [|i] En Ey; cbn in *; try discriminate; [|eapply IH; eauto].
          injection En as ->. injection Ey as ->. now destruct y. }
        apply (vv_upd _ _ _ (Some hd) (Some (val vs i)) Hh) with (i := i) in H1. rewrite !upd_twice in H1.
        rewrite (upd_same l i _ En), (upd_same vs i _ Ey) in H1. exact H1.
      + exfalso. assert (length l = length vs) as El by (clear -H; induction H; cbn; congruence).
        apply nth_error_None in Ey. assert (nth_error l i <> None) as X by congruence.
        apply nth_error_Some in X. lia. }
  assert (New' : forall m, o = AMod m -> spec vs m = vs ++ [Some []] -> cwp (c_copied c_empty)
    (fun r L R h' => L = [] /\ rely [] (G ++ roots l) h h' /\ match r with
      | Some hd => R = ptr hd :: roots l /\ holds h' hd [] /\ joins l hd
      | None => R = roots l /\ may_throw esz off limit m end) [] (roots l) h).
  { intros m _ _. eapply cwp_copied; [exact HE|now left|]. intros h1 R1 Hh1. split; [reflexivity|]. split; [exact R1|].
    split; [reflexivity|]. split; [exact Hh1|right; now left]. }
  destruct o as [[|xs|n x|i|i|i j|i j|i|i x|i x|i k f|i k f|i n|i n]|i k|i j|i]; cbn [avalid ArrConc.c_step] in *.
  - eapply Fresh; [reflexivity|reflexivity|]. eapply New'; reflexivity.
  - destruct xs as [|x0 xs0].
    + eapply Fresh; [reflexivity|reflexivity|]. eapply New'; reflexivity.
    + set (xs := x0 :: xs0) in *. eapply (Fresh _ xs); [reflexivity|reflexivity|]. apply cwp_from; [exact HV|reflexivity| |].
      * intros Hl. split; [reflexivity|]. split; [apply rely_refl|]. split; [reflexivity|]. split; [discriminate|].
        now apply size_throw.
      * intros hd h1 R1 Hh Hn. exact (conj eq_refl (conj R1 (conj eq_refl (conj Hh (or_introl Hn))))).
  - eapply (Fresh _ (repeat x (N.to_nat n))); [reflexivity|reflexivity|].
    apply cwp_from; [exact HV|rewrite lenN_repeat; lia| |].
    + intros Hl. split; [reflexivity|]. split; [apply rely_refl|]. split; [reflexivity|]. now apply size_throw.
    + intros hd h1 R1 Hh Hn. exact (conj eq_refl (conj R1 (conj eq_refl (conj Hh (or_introl Hn))))).
  - destruct (vv_at _ _ _ _ H HV) as (hd & Eh & Hh). eapply cwp_var; [exact Eh|].
    eapply (Fresh _ (val vs i)); [reflexivity|reflexivity|]. assert (Hk : known l hd) by (right; eapply nth_error_In; exact Eh).
    eapply cwp_copied; [exact Hh|exact Hk|]. intros h1 R1 Hh1. exact (conj eq_refl (conj R1 (conj eq_refl (conj Hh1 (or_intror Hk))))).
  - (* Move *) destruct (vv_at _ _ _ _ H HV) as (hd & Eh & Hh). eapply cwp_var; [exact Eh|].
    apply cwp_bind, cwp_up; [apply from_root; now left|]. intros h1 R1.
    apply cwp_roots with (R' := roots (update_at i (Some c_empty) l ++ [Some hd])).
    { intros a. rewrite roots_app, occ_app. pose proof (roots_upd l i _ (Some c_empty) a Eh) as E. cbn [ptrs occ] in *. lia. }
    apply cwp_done. repeat split. eexists. split; [constructor|]. cbn [fst spec].
    destruct (tinv_rely _ _ _ _ R1 HI) as (H1 & H2 & H3). split; [|split; [|exact H3]].
    + apply Forall2_app; [apply vv_upd; [exact H3|exact H1]|]. constructor; [|constructor].
      eapply holds_rely; [exact R1| |exact Hh]. apply in_or_app. right. eapply at_root. exact Eh.
    + eapply twins_sub; [|exact H2]. intros x Hx. apply known_app in Hx as [[->|Hx]| ->]; [now left| |right; eapply nth_error_In; exact Eh].
      apply upd_in in Hx as [Hx|Hx]; [left; congruence|]. apply upd_old in Hx as [Hx|Hx]; [discriminate|now right].
  - (* Assign *) destruct HV as [HVi HVj]. destruct (vv_at _ _ _ _ H HVi) as (hi & Ei & Hi). destruct (vv_at _ _ _ _ H HVj) as (hj & Ej & Hj).
    eapply cwp_var; [exact Ei|]. eapply cwp_var; [exact Ej|].
    apply cwp_bind, cwp_up; [apply from_root, in_or_app; right; eapply at_root; exact Ej|]. intros h1 R1.
    apply cwp_bind. apply cwp_roots with (R' := ptr hi :: ptr hj :: rest i l).
    { intros a. cbn [occ]. rewrite (roots_rest _ _ _ Ei). cbn [ptrs app occ]. lia. }
    eapply cwp_dec; [eapply holds_rely; [exact R1|apply in_or_app; right; eapply at_root; exact Ei|exact Hi]|]. intros h2 R2.
    eapply (Set' i _ (Some hj) (Some (val vs j))); [reflexivity|reflexivity|exact Ei| | | |reflexivity].
    + eapply rely_trans; [eapply rely_less; [exact R1|eapply rest_in; exact Ei]|].
      eapply rely_less; [exact R2|apply incl_tl, incl_refl].
    + eapply holds_rely; [exact R2|apply in_or_app; right; now left|].
      eapply holds_rely; [exact R1|apply in_or_app; right; eapply at_root; exact Ej|exact Hj].
    + intros x Ex. injection Ex as <-. destruct (in_dec Nat.eq_dec (ptr hj) (G ++ rest i l)) as [Hx|Hx]; [right|now left].
      apply in_app_or in Hx as [[Hx|[]]|Hx].
      * left. apply HT; [right; eapply nth_error_In; exact Ej|now left|easy].
      * apply in_flat_map in Hx as ([y|] & Hy & Ey); [|contradiction]. destruct Ey as [Ey|[]]. right.
        assert (hj = y) as ->; [|exact Hy]. apply HT; [right; eapply nth_error_In; exact Ej| |easy].
        apply upd_old in Hy as [Hy|Hy]; [discriminate|now right].
  - (* MoveAssign *) destruct HV as [HVi HVj]. destruct (vv_at _ _ _ _ H HVi) as (hi & Ei & Hi). destruct (vv_at _ _ _ _ H HVj) as (hj & Ej & Hj).
    eapply cwp_var; [exact Ei|]. eapply cwp_var; [exact Ej|].
    apply cwp_roots with (R' := roots (update_at j (Some hi) (update_at i (Some hj) l))).
    { intros y. pose proof (roots_upd l i _ (Some hj) y Ei) as E1.
      destruct (Nat.eq_dec i j) as [->|Hne].
      - rewrite upd_twice. rewrite Ei in Ej. injection Ej as <-. pose proof (roots_upd l j _ (Some hi) y Ei) as E2. lia.
      - assert (nth_error (update_at i (Some hj) l) j = Some (Some hj)) as E3.
        { rewrite (nth_update_at l i j (Some hj) _ Ei). destruct (Nat.eqb_spec j i); [congruence|exact Ej]. }
        pose proof (roots_upd _ j _ (Some hi) y E3) as E2. lia. }
    apply cwp_done. repeat split. eexists. split; [constructor|]. cbn [fst spec]. split; [|split; [|exact HE]].
    + apply vv_upd; [exact Hi|]. now apply vv_upd.
    + eapply twins_sub; [|exact HT]. intros x [->|Hx]; [now left|]. right.
      apply upd_in in Hx as [Hx|Hx]; [rewrite Hx; eapply nth_error_In; exact Ei|].
      apply upd_old in Hx as [Hx|Hx]; [discriminate|]. apply upd_in in Hx as [Hx|Hx]; [rewrite Hx; eapply nth_error_In; exact Ej|].
      apply upd_old in Hx as [Hx|Hx]; [discriminate|exact Hx].
  - (* Destroy *) destruct (vv_at _ _ _ _ H HV) as (hd & Eh & Hh). eapply cwp_var; [exact Eh|].
    apply cwp_roots with (R' := ptr hd :: rest i l); [exact (roots_rest _ _ _ Eh)|].
    apply cwp_bind. eapply cwp_dec; [exact Hh|]. intros h1 R1.
    eapply (Set' i _ None None); [reflexivity|reflexivity|exact Eh|exact R1|exact I|discriminate|reflexivity].
  - (* PushBack *) destruct (vv_at _ _ _ _ H HV) as (hd & Eh & Hh). eapply cwp_var; [exact Eh|].
    eapply (Fresh _ (val vs i ++ [x])); [reflexivity|reflexivity|].
    eapply cwp_push; [exact Hh|eapply at_root; exact Eh| |].
    + split; [reflexivity|]. split; [apply rely_refl|]. split; [reflexivity|exact I].
    + intros hd' h1 R1 Hh' Hn. exact (conj eq_refl (conj R1 (conj eq_refl (conj Hh' (or_introl Hn))))).
  - (* PushBackMut *) destruct (vv_at _ _ _ _ H HV) as (hd & Eh & Hh). eapply cwp_var; [exact Eh|].
    eapply (InPlace i hd _ (val vs i ++ [x])); [reflexivity|reflexivity|exact Eh|].
    eapply cwp_push_mut; [exact Hh| |].
    + intros h1 R1 Hh1. split; [reflexivity|]. split; [exact R1|]. split; [reflexivity|]. split; [exact Hh1|exact I].
    + intros hd' h1 R1 Hh' Hn. exact (conj eq_refl (conj R1 (conj eq_refl (conj Hh' Hn)))).
  - (* Update *) destruct HV as [HV Hk]. destruct (vv_at _ _ _ _ H HV) as (hd & Eh & Hh). eapply cwp_var; [exact Eh|].
    eapply (Fresh _ (list_set (val vs i) (N.to_nat k) f)); [reflexivity|reflexivity|].
    eapply cwp_update; [exact Hh|eapply at_root; exact Eh|exact Hk|].
    intros hd' h1 R1 Hh' Hn. exact (conj eq_refl (conj R1 (conj eq_refl (conj Hh' (or_introl Hn))))).
  - (* UpdateMut *) destruct HV as [HV Hk]. destruct (vv_at _ _ _ _ H HV) as (hd & Eh & Hh). eapply cwp_var; [exact Eh|].
    eapply (InPlace i hd _ (list_set (val vs i) (N.to_nat k) f)); [reflexivity|reflexivity|exact Eh|].
    eapply cwp_update_mut; [exact Hh|exact Hk|]. intros hd' h1 R1 Hh' Hn. exact (conj eq_refl (conj R1 (conj eq_refl (conj Hh' Hn)))).
  - (* Take *) destruct HV as [HV Hk]. destruct (vv_at _ _ _ _ H HV) as (hd & Eh & Hh). eapply cwp_var; [exact Eh|].
    eapply (Fresh _ (firstn (N.to_nat n) (val vs i))); [reflexivity|reflexivity|].
    eapply cwp_take; [exact Hh|eapply at_root; exact Eh|exact Hk|].
    intros hd' h1 R1 Hh' Hn. exact (conj eq_refl (conj R1 (conj eq_refl (conj Hh' (or_introl Hn))))).
  - (* TakeMut *) destruct HV as (HV & Hk & Ht). destruct (vv_at _ _ _ _ H HV) as (hd & Eh & Hh). eapply cwp_var; [exact Eh|].
    eapply (InPlace i hd _ (firstn (N.to_nat n) (val vs i))); [reflexivity|reflexivity|exact Eh|].
    eapply cwp_take_mut; [exact Hh|exact Hk|exact Ht|]. intros hd' h1 R1 Hh' Hn. exact (conj eq_refl (conj R1 (conj eq_refl (conj Hh' Hn)))).
  - destruct (vv_at _ _ _ _ H HV) as (hd & Eh & Hh). eapply cwp_var; [exact Eh|]. apply cwp_bind.
    eapply cwp_get_check; [exact Hh|eapply at_root; exact Eh|]. intros h1 R1. apply cwp_done.
    destruct (nth_error (val vs i) (N.to_nat k)) as [x|] eqn:Ex; apply Same; try exact R1; constructor; [exact Ex|].
    apply nth_error_None in Ex. unfold lenN. lia.
  - destruct HV as [HVi HVj]. destruct (vv_at _ _ _ _ H HVi) as (hi & Ei & Hi). destruct (vv_at _ _ _ _ H HVj) as (hj & Ej & Hj).
    eapply cwp_var; [exact Ei|]. eapply cwp_var; [exact Ej|]. apply cwp_bind.
    eapply cwp_equals; [exact Hi|exact Hj|eapply at_root; exact Ei|eapply at_root; exact Ej| |].
    + apply HT; right; eapply nth_error_In; [exact Ei|exact Ej].
    + intros h1 R1. apply cwp_done. apply Same; [exact R1|constructor].
  - destruct (vv_at _ _ _ _ H HV) as (hd & Eh & Hh). eapply cwp_var; [exact Eh|]. apply cwp_done.
    destruct Hh as (c & _ & _ & Hs & _). rewrite Hs. apply Same; [apply rely_refl|constructor].
Qed.

Notation aspecs := (aspecs esz off limit teq).
Notation keeps_to := (keeps_to esz off limit trivial teq).
Notation c_thread := (c_thread trivial esz off nodesz limit teq c_empty).
Definition ended (vs : vals T) (c : client T) : post (hvars * list (aobs T)) := fun r L R h =>
  L = [] /\ R = roots (fst r) /\ exists vs', aspecs vs c (snd r) vs' /\ tinv h (fst r) vs'.
Lemma cwp_thread c : forall l vs h, tinv h l vs -> keeps_to vs c -> cwp (c_thread l c) (ended vs c) [] (roots l) h.
Proof.
  induction c as [|o k IH]; intros l vs h H E; cbn [ArrConcSpec.keeps_to ArrConc.c_thread] in *.
  - apply cwp_done. repeat split. exists vs. split; [constructor|exact H].
  - destruct E as [Hv Hk]. apply cwp_bind. eapply cwp_mono; [|eapply cwp_step; [exact H|exact Hv]].
    intros [l1 y] L R h1 (-> & -> & vs1 & Ey & H1). cbn [fst snd] in *. apply cwp_bind.
    eapply cwp_mono; [|eapply (IH y); [exact H1|now apply Hk]].
    intros [l2 ys] L R h2 (-> & -> & vs2 & E2 & H2). cbn [fst snd] in *. apply cwp_done. repeat split.
    exists vs2. cbn [fst snd]. split; [econstructor; [exact Ey|exact E2]|exact H2].
Qed.

(** A thread that runs alone comes to an end. *)
Lemma cwp_alone {A} (p : prog slots A) : forall F L R h, cwp p F L R h -> st L h (R ++ G) ->
  exists a h' L' R', alone p h = Ok (a, h') /\ st L' h' (R' ++ G) /\ F a L' R' h'.
Proof.
  induction p as [a| |C q k IH]; intros F L R h W S; pose proof (W [] G (incl_refl _)) as W'; rewrite app_nil_r in W';
    specialize (W' S).
  - destruct W' as (L' & R' & S' & _ & HF). rewrite app_nil_r in S'. exists a, h, L', R'. auto.
  - contradiction.
  - destruct W' as (_ & (x & h1 & E) & K). destruct (K x h1) as (L' & R' & S' & _ & _ & N).
    { left. exact E. }
    rewrite app_nil_r in S'. destruct (IH x F L' R' h1 (N h1 (rely_refl _ _ _)) S') as (a & h2 & L2 & R2 & Ea & S2 & HF).
    exists a, h2, L2, R2. split; [|auto]. cbn [alone]. unfold mbind. rewrite E. exact Ea.
Qed.
Lemma start_ok : tinv (c_start esz off nodesz) [] [] /\ st [] (c_start esz off nodesz : heap) (roots [] ++ G).
Proof.
  split; [split; [constructor|split]|].
  - intros x y [->|[]] [->|[]]. reflexivity.
  - assert (W : no_wrap 1) by (unfold ArrayProofs.no_wrap; clear -Hnode Hnode2; lia).
    exists (mkCell 1 (repeat None (N.to_nat (room 1))) []). split; [reflexivity|]. split; [reflexivity|].
    unfold fitting. cbn [hsize hcap c_empty c_body ptr]. split; [reflexivity|]. split; [apply ArrayProofs.good_fresh|].
    rewrite lenN_repeat. pose proof (room_ge 1 W). unfold ArrayProofs.cap_ok. repeat split; clear -H Hnode Hfirst; lia.
  - assert (S0 : st [] ([] : heap) []).
    { split; [|split; constructor]. split; [intros [|a]; reflexivity|intros [|a] c Hc; discriminate]. }
    pose proof (wp_new [] [] [] (repeat None (N.to_nat (room 1))) [] (fun a h => st [] h [a] /\ a = 0%nat) S0) as W.
    unfold wp in W. cbn [new] in W. refine (proj1 (W _)). intros a h' S _ _ E. split; [exact S|exact E].
Qed.
End Proofs.
