(** concat_merger in counted memory: what it holds at every step, whether it goes on or throws. *)
From Coq Require Import List NArith Arith Bool Lia ZifyN ZifyNat ZifyBool Permutation.
From Verif Require Import Common NList Rrb RrbInv RrbPos RrbOps RrbSlice RrbTree RrbMerge RrbConcat RrbViewOk AtomProofs
  RcHeap RcProofs RcExn RcExnProofs RcMove VecHeap VecPlan VecNodes VecMake VecPush VecConcat VecCenter.
Import ListNotations.
Local Open Scope N_scope.
Set Default Goal Selector "!".

Section Merge.
Context {T : Type}.
Variables B BL : N.
Variable t : bool.
Notation body := (vbody T).
Notation heap := (heap body). Notation cell := (cell body).
Notation pos_ok := (@pos_ok T B BL).
Notation wf := (@wf T B BL).
Notation crel := (@crel T B BL).
Notation merger := (@merger T).
Notation width := (width B).
Notation lwidth := (lwidth BL).
Notation xwp := (@xwp body t _).
Implicit Types (h : heap) (L R : list nat) (s : hmerger).

(** ** Steps of a merger *)
Definition swp {A} (m : MS (T := T) A) s h (Q : A -> hmerger -> heap -> Prop) (E : hmerger -> heap -> Prop) : Prop :=
  xwp (m s) h (fun os h' => match os with
                            | (Some a, s') => Q a s' h'
                            | (None, s') => t = true /\ E s' h'
                            end) (fun _ => False).
Lemma swp_ret {A} (a : A) s h (Q : A -> hmerger -> heap -> Prop) (E : hmerger -> heap -> Prop) : Q a s h -> swp (sret a) s h Q E.
Proof. intros H. now apply xwp_ret. Qed.
Lemma swp_bind {A C} (m : MS A) (k : A -> MS C) s h (Q : C -> hmerger -> heap -> Prop) (E : hmerger -> heap -> Prop) :
  swp m s h (fun a s' h' => swp (k a) s' h' Q E) E -> swp (sbind m k) s h Q E.
Proof.
  intros H. apply xwp_bind. eapply xwp_mono; [exact H| |easy].
  intros [[a|] s'] h' H'; [exact H'|]. apply xwp_ret. exact H'.
Qed.
Lemma swp_mono {A} (m : MS A) s h (Q Q' : A -> hmerger -> heap -> Prop) (E E' : hmerger -> heap -> Prop) : swp m s h Q E ->
  (forall a s' h', Q a s' h' -> Q' a s' h') -> (forall s' h', E s' h' -> E' s' h') -> swp m s h Q' E'.
Proof.
  intros H HQ HE. eapply xwp_mono; [exact H| |easy]. intros [[a|] s'] h'; [apply HQ|]. intros [Ht H']. auto.
Qed.
Lemma swp_sm {A} (m : M body A) s h (Q : A -> hmerger -> heap -> Prop) (E : hmerger -> heap -> Prop) : wp m h (fun a h' => Q a s h') -> swp (sm m) s h Q E.
Proof. intros H. apply xwp_bind. apply xwp_m. eapply wp_mono; [exact H|]. intros a h' H'. now apply xwp_ret. Qed.
Lemma swp_sx {A} (m : X body A) s h (Q : A -> hmerger -> heap -> Prop) (E : hmerger -> heap -> Prop) : xwp m h (fun a h' => Q a s h') (fun h' => E s h') -> swp (sx m) s h Q E.
Proof.
  intros H. apply xwp_bind. intros f Hf. specialize (H f Hf). unfold xcatch.
  destruct (m f h) as [[[[a|] f'] h']|]; [| |exact H].
  - destruct H as [H1 H2]. split; [exact H1|]. now apply xwp_ret.
  - destruct H as [H1 H2]. split; [congruence|]. now apply xwp_ret.
Qed.
Lemma swp_get s h (Q : hmerger -> hmerger -> heap -> Prop) (E : hmerger -> heap -> Prop) : Q s s h -> swp sget s h Q E.
Proof. intros H. now apply xwp_ret. Qed.
Lemma swp_put s' s h (Q : unit -> hmerger -> heap -> Prop) (E : hmerger -> heap -> Prop) : Q tt s' h -> swp (sput s') s h Q E.
Proof. intros H. now apply xwp_ret. Qed.
Lemma swp_curr c cs s h (Q : N -> hmerger -> heap -> Prop) (E : hmerger -> heap -> Prop) : hm_curr s = c :: cs -> Q c s h -> swp hcurr s h Q E.
Proof. intros Ec H. apply swp_bind. apply swp_get. rewrite Ec. now apply swp_ret. Qed.

(** ** What a merger holds *)
(** to_: none, a leaf with the elements copied so far, an inner node and its table. *)
Inductive tdesc : Type :=
| TNone
| TLeaf (a : nat) (xs : list T)
| TInner (a r : nat) (ks : list nat) (ns : list (node T)).
(** A node of the result: block, table block, children. *)
Record hpar : Type := mkHP { q_a : nat; q_r : nat; q_k : list nat; q_n : list (node T) }.
Definition tlocs (d : tdesc) : list nat :=
  match d with TNone => [] | TLeaf a _ => [a] | TInner a r _ _ => [r; a] end.
Definition tkids (d : tdesc) : list nat := match d with TInner _ _ ks _ => ks | _ => [] end.
Definition plocs (ps : list hpar) : list nat := flat_map (fun q => [q_r q; q_a q]) ps.
Definition Lm (d : tdesc) (ps : list hpar) L : list nat := tlocs d ++ plocs ps ++ L.
Definition parat (cl : nat) (x : list nat) (y : list N) L h (q : hpar) : Prop :=
  cell_at h (q_a q) (icell 1 (Some (q_r q)) (q_k q ++ x)) /\
  cell_at h (q_r q) (mkCell 1 (VTable (S cl) (sums 0 (map nsize (q_n q)) ++ y)) []) /\
  Forall2 (nrep L h) (q_k q) (q_n q) /\ Forall (wf cl) (q_n q).
Definition pars (cl : nat) x y L h (ps : list hpar) : Prop :=
  match ps with [] => False | q :: ps' => parat cl x y L h q /\ Forall (parat cl [] [] L h) ps' end.
Definition tat (cl : nat) L h s (d : tdesc) : Prop :=
  match d with
  | TNone => hm_to s = None
  | TLeaf a xs => cl = O /\ hm_to s = Some a /\ hm_off s = lenN xs /\ cell_at h a (mkCell 1 (VLeaf xs) [])
  | TInner a r ks ns =>
      (exists l, cl = S l /\ Forall (wf l) ns) /\ hm_to s = Some a /\ hm_off s = lenN ns /\ hm_tosz s = sums 0 (map nsize ns) /\
      cell_at h a (icell 1 (Some r) ks) /\ (exists sz, cell_at h r (mkCell 1 (VTable cl sz) [])) /\
      Forall2 (nrep L h) ks ns
  end.
Record mst (cl : nat) x y s d ps L h0 R h : Prop := {
  ms_nodes : hm_nodes s = map q_a ps;
  ms_pars : pars cl x y (Lm d ps L) h ps;
  ms_to : tat cl (Lm d ps L) h s d;
  ms_st : st (Lm d ps L) h (tkids d ++ flat_map q_k ps ++ R);
  ms_mv : mv None L L (Lm d ps L) h0 h }.

Lemma parat_mv cl x y L0 L L' h h' q : mv None L0 L L' h h' -> In (q_a q) L0 -> In (q_r q) L0 ->
  parat cl x y L h q -> parat cl x y L' h' q.
Proof.
  intros M Ia Ir (H1 & H2 & H3 & H4). split; [eapply mv_local; eauto|]. split; [eapply mv_local; eauto|].
  split; [|exact H4]. eapply mv_nreps; [exact M|intros; exact I|exact H3].
Qed.
Lemma plocs_in q ps : In q ps -> In (q_a q) (plocs ps) /\ In (q_r q) (plocs ps).
Proof. intros H. unfold plocs. split; apply in_flat_map; exists q; cbn; auto. Qed.
Lemma parats_mv cl L0 L L' h h' ps : mv None L0 L L' h h' -> incl (plocs ps) L0 ->
  Forall (parat cl [] [] L h) ps -> Forall (parat cl [] [] L' h') ps.
Proof.
  intros M Hi H. rewrite Forall_forall in *. intros q Hq. destruct (plocs_in _ _ Hq) as [I1 I2].
  eapply parat_mv; [exact M|now apply Hi|now apply Hi|now apply H].
Qed.
Lemma pars_mv cl x y L0 L L' h h' ps : mv None L0 L L' h h' -> incl (plocs ps) L0 ->
  pars cl x y L h ps -> pars cl x y L' h' ps.
Proof.
  intros M Hi. destruct ps as [|q ps]; [easy|]. intros [H1 H2]. split.
  - eapply parat_mv; [exact M|apply Hi; right; now left|apply Hi; now left|exact H1].
  - eapply parats_mv; [exact M|intros z Hz; apply Hi; right; now right|exact H2].
Qed.
Lemma tat_mv cl L0 L L' h h' s d : mv None L0 L L' h h' -> incl (tlocs d) L0 -> tat cl L h s d -> tat cl L' h' s d.
Proof.
  intros M Hi. destruct d as [|a xs|a r ks ns]; cbn [tat tlocs] in *; [auto| |].
  - intros (H1 & H2 & H3 & H4). split; [exact H1|]. split; [exact H2|]. split; [exact H3|].
    eapply mv_local; [exact M|apply Hi; now left|exact H4].
  - intros (H1 & H2 & H3 & H4 & H5 & [sz H6] & H7). split; [exact H1|]. split; [exact H2|]. split; [exact H3|].
    split; [exact H4|]. split; [eapply mv_local; [exact M|apply Hi; right; now left|exact H5]|].
    split; [exists sz; eapply mv_local; [exact M|apply Hi; now left|exact H6]|].
    eapply mv_nreps; [exact M|intros; exact I|exact H7].
Qed.
Lemma incl_p d ps L : incl (plocs ps) (Lm d ps L).
Proof. intros z Hz. unfold Lm. apply in_or_app. right. apply in_or_app. now left. Qed.
Lemma incl_t d ps L : incl (tlocs d) (Lm d ps L).
Proof. intros z Hz. unfold Lm. apply in_or_app. now left. Qed.
Lemma incl_L d ps L : incl L (Lm d ps L).
Proof. intros z Hz. unfold Lm. apply in_or_app. right. apply in_or_app. now right. Qed.

Lemma mst_mv cl x y s d ps L h0 R R' h h' : mst cl x y s d ps L h0 R h ->
  st (Lm d ps L) h' (tkids d ++ flat_map q_k ps ++ R') -> mv None (Lm d ps L) (Lm d ps L) (Lm d ps L) h h' ->
  mst cl x y s d ps L h0 R' h'.
Proof.
  intros [H1 H2 H3 H4 H5] S M. constructor; auto.
  - eapply pars_mv; [exact M|apply incl_p|exact H2].
  - eapply tat_mv; [exact M|apply incl_t|exact H3].
  - eapply mv_trans; [exact H5|]. eapply mv_weak; [exact M|apply incl_L].
Qed.
(** Other fields of the merger. *)
Lemma mst_set cl x y s s' d ps L h0 R h : mst cl x y s d ps L h0 R h -> hm_nodes s' = hm_nodes s ->
  hm_to s' = hm_to s -> hm_off s' = hm_off s -> hm_tosz s' = hm_tosz s -> mst cl x y s' d ps L h0 R h.
Proof.
  intros [H1 H2 H3 H4 H5] E1 E2 E3 E4. constructor; auto; [congruence|].
  destruct d; cbn [tat] in *; rewrite E2, ?E3, ?E4; exact H3.
Qed.
Lemma occ_in3 a b c d : forall x : nat, occ x (a ++ b ++ c ++ d) = occ x (c ++ a ++ b ++ d).
Proof. intros x. rewrite !occ_app. lia. Qed.
Lemma mst_inc cl x y s d ps L h0 R h p (Q : unit -> heap -> Prop) : mst cl x y s d ps L h0 R h ->
  live (Lm d ps L) h p -> (forall h', mst cl x y s d ps L h0 (p :: R) h' -> mv None (Lm d ps L) (Lm d ps L) (Lm d ps L) h h' -> Q tt h') ->
  wp (inc p) h Q.
Proof.
  intros Hm Hl K. eapply wv_inc; [exact (ms_st _ _ _ _ _ _ _ _ _ _ Hm)|exact Hl|]. intros h' S M. apply K; [|exact M].
  eapply mst_mv; [exact Hm| |exact M]. eapply st_eqv; [|exact S]. intros z.
  change (p :: R) with ([p] ++ R). rewrite (occ_in3 (tkids d) (flat_map q_k ps) [p] R). reflexivity.
Qed.

(** The child just added gets its reference: shared, or [to_] itself. *)
Definition snoc_kid (q : hpar) p n : hpar := mkHP (q_a q) (q_r q) (q_k q ++ [p]) (q_n q ++ [n]).
Lemma sums_snoc (ns : list (node T)) n : sums 0 (map nsize (ns ++ [n])) = sums 0 (map nsize ns) ++ [csize ns + nsize n].
Proof. rewrite map_app, sums_app. reflexivity. Qed.
Lemma parat_close cl L L' h q p n L0 : mv None L0 L L' h h -> parat cl [p] [csize (q_n q) + nsize n] L h q ->
  In (q_a q) L0 -> In (q_r q) L0 -> nrep L' h p n -> wf cl n -> parat cl [] [] L' h (snoc_kid q p n).
Proof.
  intros M (H1 & H2 & H3 & H4) I1 I2 Hn Hw. unfold snoc_kid. split; [|split; [|split]]; cbn [q_a q_r q_k q_n].
  - rewrite app_nil_r. exact H1.
  - rewrite app_nil_r, sums_snoc. exact H2.
  - apply Forall2_app; [|auto]. eapply mv_nreps; [exact M|intros; exact I|exact H3].
  - apply Forall_app. auto.
Qed.
Lemma mst_close cl s d q ps L h0 R h p n : mst cl [p] [csize (q_n q) + nsize n] s d (q :: ps) L h0 (p :: R) h ->
  nrep (Lm d (q :: ps) L) h p n -> wf cl n -> mst cl [] [] s d (snoc_kid q p n :: ps) L h0 R h.
Proof.
  intros [H1 [H2 H2'] H3 H4 H5] Hn Hw. change (Lm d (snoc_kid q p n :: ps) L) with (Lm d (q :: ps) L) in *. constructor; auto.
  - change (Lm d (snoc_kid q p n :: ps) L) with (Lm d (q :: ps) L). split; [|exact H2'].
    eapply parat_close; [apply mv_refl|exact H2| | |exact Hn|exact Hw]; apply (incl_p d (q :: ps) L); cbn; auto.
  - change (Lm d (snoc_kid q p n :: ps) L) with (Lm d (q :: ps) L). eapply st_eqv; [|exact H4].
    intros z. cbn [flat_map snoc_kid q_k]. rewrite ?occ_app. cbn. rewrite ?occ_app. lia.
Qed.
Lemma mst_leaf cl s q ps L h0 R h a xs : mst cl [a] [csize (q_n q) + nsize (Leaf xs)] s (TLeaf a xs) (q :: ps) L h0 R h ->
  wf cl (Leaf xs) -> mst cl [] [] (set_to s None (hm_off s) []) TNone (snoc_kid q a (Leaf xs) :: ps) L h0 R h.
Proof.
  intros [H1 [H2 H2'] (G1 & G2 & G3 & G4) H4 H5] Hw. cbn [tlocs Lm app tkids] in *. unfold Lm in *. cbn [tlocs app] in *.
  destruct (pub_leaf _ _ _ _ _ H4 G4) as (S & M & Hn).
  constructor; unfold Lm; cbn [tlocs tkids app tat set_to hm_to hm_nodes]; auto.
  - split.
    + eapply parat_close; [exact M|exact H2| | |exact Hn|exact Hw]; cbn; auto.
    + eapply parats_mv; [exact M| |exact H2']. intros z Hz. right. right. apply in_or_app. now left.
  - eapply st_eqv; [|exact S]. intros z. cbn [flat_map snoc_kid q_k]. rewrite ?occ_app. cbn. rewrite ?occ_app. lia.
  - eapply mv_trans; [exact H5|]. eapply mv_weak; [exact M|]. intros z Hz. apply in_or_app. now right.
Qed.
Lemma mst_inner l s q ps L h0 R h a r ks ns : let n := Inner (Some (sums 0 (map nsize ns))) ns in
  mst (S l) [a] [csize (q_n q) + nsize n] s (TInner a r ks ns) (q :: ps) L h0 R h ->
  cell_at h r (mkCell 1 (VTable (S l) (sums 0 (map nsize ns))) []) ->
  wf (S l) n -> mst (S l) [] [] (set_to s None (hm_off s) []) TNone (snoc_kid q a n :: ps) L h0 R h.
Proof.
  intros n [H1 [H2 H2'] (_ & _ & _ & _ & G5 & _ & G7) H4 H5] Hr Hw. unfold Lm in *. cbn [tlocs app tkids] in *.
  pose proof (lv1_wf _ _ _ _ _ Hw) as Elv.
  destruct (pub_rel _ _ _ _ _ _ _ _ _ H4 G5 Hr (eq_sym Elv) G7) as (S & M & Hn).
  constructor; unfold Lm; cbn [tlocs tkids app tat set_to hm_to hm_nodes]; auto.
  - split.
    + eapply parat_close; [exact M|exact H2| | |exact Hn|exact Hw]; cbn; auto.
    + eapply parats_mv; [exact M| |exact H2']. intros z Hz. right. right. apply in_or_app. now left.
  - eapply st_eqv; [|exact S]. intros z. cbn [flat_map snoc_kid q_k]. rewrite ?occ_app. cbn. rewrite ?occ_app. lia.
  - eapply mv_trans; [exact H5|]. eapply mv_weak; [exact M|]. intros z Hz. apply in_or_app. now right.
Qed.

(** ** The same merger on values *)
Definition lim (cl : nat) : N := match cl with O => lwidth | S _ => width end.
Record msync (cl : nat) s (ps : list hpar) (m : merger) : Prop := {
  sy_curr : hm_curr s = m_curr m;
  sy_n : hm_n s = m_n m;
  sy_sizes : hm_sizes s = m_sizes m;
  sy_cap : hm_cap s = p_cap (m_par m);
  sy_pars : Forall2 (fun q v => q_n q = p_kids v /\ p_sizes v = sums 0 (map nsize (p_kids v))) ps (m_par m :: rev (m_done m));
  sy_lim : Forall (fun c => 1 <= c <= lim cl) (m_curr m) }.
Definition tval (d : tdesc) : option (node T) :=
  match d with
  | TNone => None
  | TLeaf _ xs => Some (Leaf xs)
  | TInner _ _ _ ns => Some (Inner (Some (sums 0 (map nsize ns))) ns)
  end.
Definition broke cl L h0 R s' h' : Prop := exists d ps, mst cl [] [] s' d ps L h0 R h'.

Lemma perm_new d r a X : Permutation (r :: a :: tlocs d ++ X) (tlocs d ++ r :: a :: X).
Proof.
  transitivity (r :: tlocs d ++ a :: X).
  - apply perm_skip. apply Permutation_middle.
  - apply Permutation_middle.
Qed.

Lemma nodup_heads d q ps L : NoDup (Lm d (q :: ps) L) ->
  ~ In (q_r q) (tlocs d ++ plocs ps ++ L) /\ ~ In (q_a q) (tlocs d ++ plocs ps ++ L) /\ q_r q <> q_a q.
Proof.
  unfold Lm. cbn [plocs flat_map]. fold (plocs ps). cbn [app]. intros ND.
  assert (P : Permutation (tlocs d ++ q_r q :: q_a q :: plocs ps ++ L) (q_r q :: q_a q :: tlocs d ++ plocs ps ++ L)).
  { symmetry. apply perm_new. }
  pose proof (Permutation_NoDup P ND) as ND'. inversion ND' as [|? ? N1 ND1]; subst. inversion ND1 as [|? ? N2 _]; subst.
  split; [intros Hi; apply N1; now right|]. split; [exact N2|]. intros E. apply N1. left. now symmetry.
Qed.

(** The last part of add_child: the entry of the last parent. *)
Lemma add_entry cl p (n : node T) s d q ps L h0 R h (Q : unit -> hmerger -> heap -> Prop) E tt0 ts :
  mst cl [] [] s d (q :: ps) L h0 R h -> lenN (q_n q) < hm_cap s ->
  hm_nodes s = q_a q :: map q_a ps -> hm_sizes s = tt0 :: ts ->
  (forall h', mst cl [p] [csize (q_n q) + nsize n] (mkHM (hm_curr s) (hm_n s) (hm_nodes s) (hm_cap s) (tt0 + nsize n :: ts) (hm_to s) (hm_off s) (hm_tosz s)) d (q :: ps) L h0 R h' ->
     mv None (tlocs d ++ plocs ps ++ L) (Lm d (q :: ps) L) (Lm d (q :: ps) L) h h' ->
     Q tt (mkHM (hm_curr s) (hm_n s) (hm_nodes s) (hm_cap s) (tt0 + nsize n :: ts) (hm_to s) (hm_off s) (hm_tosz s)) h') ->
  swp (sbind (sput (mkHM (hm_curr s) (hm_n s) (q_a q :: map q_a ps) (hm_cap s) (tt0 + nsize n :: ts) (hm_to s) (hm_off s) (hm_tosz s)))
        (fun _ => sm (' (r2, _) <~ load_inner (q_a q) ;;
                  match r2 with
                  | None => mub
                  | Some r2 =>
                      tab2 <~ load_table r2 ;;
                      let idx := lenN tab2 in
                      if idx <? hm_cap s then
                        prev <~ mlift (if idx =? 0 then Ok 0 else rnthN tab2 (idx - 1)) ;;
                        _ <~ put_size r2 idx (nsize n + prev) ;;
                        put_last (q_a q) idx p
                      else mub
                  end))) s h Q E.
Proof.
  intros Hm Hcap En Es K. apply swp_bind. apply swp_put. apply swp_sm. pose proof Hm as [H1 [H2 H2'] H3 H4 H5].
  destruct H2 as (A1 & A2 & A3 & A4). rewrite app_nil_r in A1, A2. pose proof (F2_len _ _ _ A3) as Elen.
  pose proof H4 as (_ & _ & ND). destruct (nodup_heads _ _ _ _ ND) as (N1 & N2 & N3).
  apply wp_bind. eapply wp_load_inner; [exact A1|]. apply wp_bind. eapply wp_load_table; [exact A2|]. cbv zeta.
  rewrite lenN_sums, lenN_map. destruct (N.ltb_spec (lenN (q_n q)) (hm_cap s)); [|lia].
  apply wp_bind. eapply wp_lift with (a := csize (q_n q)).
  { destruct (N.eqb_spec (lenN (q_n q)) 0) as [Z|Z].
    - apply lenN_0 in Z. rewrite Z. reflexivity.
    - apply last_sizes. intros Z'. rewrite Z' in Z. now apply Z. }
  assert (In (q_r q) (Lm d (q :: ps) L)) as I1 by (apply incl_p; cbn; auto).
  assert (In (q_a q) (Lm d (q :: ps) L)) as I2 by (apply incl_p; cbn; auto).
  apply wp_bind. eapply wp_put_size; [exact H4|exact I1|exact A2|apply rtakeN_all; now rewrite lenN_sums, lenN_map|].
  intros h1 (S1 & C1 & F1 & M1).
  eapply wp_put_last; [exact S1|exact I2|unfold cell_at; rewrite F1 by congruence; exact A1|now apply rtakeN_all|].
  intros h2 (S2 & C2 & F2 & M2). rewrite <- En.
  assert (mv None (tlocs d ++ plocs ps ++ L) (Lm d (q :: ps) L) (Lm d (q :: ps) L) h h2) as M.
  { eapply mv_trans; [now apply M1|now apply M2]. }
  apply K; [|exact M]. constructor; cbn [hm_nodes hm_to]; auto.
  - split.
    + split; [exact C2|]. split.
      * unfold cell_at. rewrite F2 by congruence. replace (csize (q_n q) + nsize n) with (nsize n + csize (q_n q)) by lia. exact C1.
      * split; [|exact A4]. eapply mv_nreps; [exact M|intros; exact I|exact A3].
    + eapply parats_mv; [exact M| |exact H2']. intros z Hz. apply in_or_app. right. apply in_or_app. now left.
  - assert (tat cl (Lm d (q :: ps) L) h2 s d) as G.
    { eapply tat_mv; [exact M| |exact H3]. intros z Hz. apply in_or_app. now left. }
    destruct d; exact G.
  - eapply mv_trans; [exact H5|]. eapply mv_weak; [exact M|]. intros z Hz. apply in_or_app. right. apply in_or_app. now right.
Qed.

Lemma hadd_child_ok cl p (n : node T) m m' s d ps L h0 R h (Q : unit -> hmerger -> heap -> Prop) :
  mst cl [] [] s d ps L h0 R h -> msync cl s ps m -> add_child B m n (nsize n) = Ok m' ->
  (forall q ps' s' h', mst cl [p] [csize (q_n q) + nsize n] s' d (q :: ps') L h0 R h' ->
     msync cl s' (snoc_kid q p n :: ps') m' -> 
     mv None (tlocs d) (Lm d ps L) (Lm d (q :: ps') L) h h' ->
     hm_to s' = hm_to s -> hm_off s' = hm_off s -> hm_tosz s' = hm_tosz s -> Q tt s' h') ->
  swp (hadd_child B cl p (nsize n)) s h Q (broke cl L h0 R).
Proof.
  intros Hm [Y1 Y2 Y3 Y4 Y5 Y6] E K. unfold add_child in E. unfold hadd_child. apply swp_bind. apply swp_get.
  destruct (nsize n =? 0); [discriminate|]. rewrite Y1, Y3.
  destruct (m_curr m) as [|c curr] eqn:Ec; [discriminate|]. destruct (m_sizes m) as [|t0 ts] eqn:Et; [discriminate|].
  inversion Y6 as [|? ? Hcc Y6']; subst.
  pose proof (ms_nodes _ _ _ _ _ _ _ _ _ _ Hm) as En.
  destruct ps as [|q ps]; [now destruct (ms_pars _ _ _ _ _ _ _ _ _ _ Hm)|].
  inversion Y5 as [|? ? ? ? [Yk Ys] Yr]; subst. rewrite En. cbn [map].
  apply swp_bind. apply swp_put.
  pose proof (ms_pars _ _ _ _ _ _ _ _ _ _ Hm) as [(A1 & A2 & A3 & A4) A5]. rewrite app_nil_r in A1, A2.
  apply swp_bind. apply swp_sm. apply wp_bind. eapply wp_load_inner; [exact A1|]. apply wp_ret.
  apply swp_bind. apply swp_sm. eapply wp_load_table; [exact A2|]. rewrite lenN_sums, lenN_map.
  rewrite <- Yk in E. apply swp_bind.
  destruct (N.eqb_spec (lenN (q_n q)) width) as [Ef|Enf].
  - assert (lenN (q_a q :: map q_a ps) = lenN (m_done m) + 1) as El.
    { rewrite lenN_cons, lenN_map. f_equal. rewrite (F2_len _ _ _ Yr). unfold lenN. now rewrite rev_length. }
    rewrite El, Y2.
    destruct ((lenN (m_done m) + 1 <? 3) && (width <=? m_n m)) eqn:Eg; [|discriminate]. cbn [rbind p_kids p_cap p_sizes] in E.
    change (lenN (@nil (node T))) with 0 in E. cbn [N.eqb rbind app] in E.
    destruct (N.ltb_spec 0 (N.min (m_n m - width) width)) as [Hlt|]; [|discriminate]. injection E as <-.
    apply swp_bind. apply swp_put. apply swp_bind. apply swp_sx.
    eapply xwp_make_inner_r; [exact (ms_st _ _ _ _ _ _ _ _ _ _ Hm)| |].
    2: { intros h' Ht S' M'. exists d, (q :: ps). eapply mst_mv; [|exact S'|exact M'].
         eapply mst_set; [exact Hm|..]; cbn; auto. }
    intros a r h1 S1 Ha Hr M1. apply swp_put. apply swp_bind. apply swp_get. cbn [hm_nodes hm_sizes].
    set (q2 := mkHP a r [] []). set (s2 := mkHM curr (m_n m - width) (a :: q_a q :: map q_a ps) (N.min (m_n m - width) width)
                                      (t0 :: t0 :: ts) (hm_to s) (hm_off s) (hm_tosz s)).
    assert (P : Permutation (r :: a :: Lm d (q :: ps) L) (Lm d (q2 :: q :: ps) L)) by apply perm_new.
    pose proof (mv_perm _ _ _ _ _ _ _ P M1) as M1'.
    assert (mst cl [] [] s2 d (q2 :: q :: ps) L h0 R h1) as Hm2.
    { destruct Hm as [H1 [H2 H2'] H3 H4 H5]. constructor.
      - reflexivity.
      - split.
        + split; [exact Ha|]. split; [exact Hr|]. split; constructor.
        + assert (Forall (parat cl [] [] (Lm d (q :: ps) L) h) (q :: ps)) as H2a by (constructor; assumption).
          eapply parats_mv; [exact M1'|apply incl_p|exact H2a].
      - assert (tat cl (Lm d (q2 :: q :: ps) L) h1 s d) as G.
        { eapply tat_mv; [exact M1'|apply incl_t|exact H3]. }
        destruct d; exact G.
      - eapply st_perm; [exact P|exact S1].
      - eapply mv_trans; [exact H5|]. eapply mv_weak; [exact M1'|apply incl_L]. }
    eapply (add_entry cl p n s2 d q2 (q :: ps) L h0 R h1 _ _ t0 (t0 :: ts) Hm2); [exact Hlt|reflexivity|reflexivity|].
    cbn [hm_curr hm_n hm_nodes hm_cap hm_to hm_off hm_tosz s2]. intros h2 Hm3 M3.
    eapply K; [exact Hm3| | |reflexivity|reflexivity|reflexivity].
    + constructor; cbn [hm_curr hm_n hm_sizes hm_cap m_curr m_n m_sizes m_par p_cap]; auto.
      constructor.
      * split; [reflexivity|]. cbn. f_equal. lia.
      * cbn [m_done]. rewrite rev_app_distr. constructor; auto.
    + eapply mv_trans; [eapply mv_weak; [exact M1'|apply incl_t]|].
      eapply mv_weak; [exact M3|]. intros z Hz. apply in_or_app. now left.
  - cbn [rbind] in E. rewrite <- Yk in E. destruct (N.ltb_spec (lenN (q_n q)) (p_cap (m_par m))) as [Hlt|]; [|discriminate].
    apply swp_ret. apply swp_bind. apply swp_get. cbn [hm_nodes hm_sizes].
    assert ((if lenN (q_n q) =? 0 then Ok 0 else rnthN (p_sizes (m_par m)) (lenN (q_n q) - 1)) = Ok (csize (q_n q))) as Ep.
    { rewrite Ys, <- Yk. destruct (N.eqb_spec (lenN (q_n q)) 0) as [Z|Z].
      - apply lenN_0 in Z. rewrite Z. reflexivity.
      - apply last_sizes. intros Z'. rewrite Z' in Z. now apply Z. }
    rewrite Ep in E. cbn [rbind] in E. injection E as <-.
    set (s2 := mkHM curr (hm_n s) (q_a q :: map q_a ps) (hm_cap s) (t0 :: ts) (hm_to s) (hm_off s) (hm_tosz s)).
    assert (mst cl [] [] s2 d (q :: ps) L h0 R h) as Hm2 by (eapply mst_set; [exact Hm|..]; auto).
    eapply (add_entry cl p n s2 d q ps L h0 R h _ _ t0 ts Hm2); [cbn; now rewrite Y4|reflexivity|reflexivity|].
    cbn [hm_curr hm_n hm_nodes hm_cap hm_to hm_off hm_tosz s2]. intros h2 Hm3 M3.
    eapply K; [exact Hm3| | |reflexivity|reflexivity|reflexivity].
    + constructor; cbn [hm_curr hm_n hm_sizes hm_cap m_curr m_n m_sizes m_par p_cap]; auto.
      constructor; [|exact Yr]. cbn [snoc_kid q_n p_kids p_sizes]. rewrite Yk. split; [reflexivity|].
      rewrite sums_snoc, Ys. f_equal. f_equal. rewrite <- Yk. lia.
    + eapply mv_weak; [exact M3|]. intros z Hz. apply in_or_app. now left.
Qed.

(** ** Merging leaves *)
Definition mgood cl L h0 R (m : merger) s h : Prop :=
  exists d ps, mst cl [] [] s d ps L h0 R h /\ msync cl s ps m /\ m_to m = tval d.
Lemma msync_set cl s ps m a o z : msync cl s ps m -> msync cl (set_to s a o z) ps m.
Proof. intros []. constructor; auto. Qed.
Lemma msync_to cl s ps (m : merger) o : msync cl s ps m ->
  msync cl s ps (mkMerger (m_curr m) (m_n m) (m_done m) (m_par m) (m_sizes m) o).
Proof. intros []. constructor; auto. Qed.
Lemma add_child_to (m m' : merger) n sz : add_child B m n sz = Ok m' -> m_to m' = None.
Proof.
  unfold add_child. destruct (sz =? 0); [discriminate|]. destruct (m_curr m), (m_sizes m); try discriminate.
  intros H. apply rbind_ok in H. destruct H as ([[[[n_ done] par] ss'] s0] & _ & H).
  destruct (_ <? _); [|discriminate]. apply rbind_ok in H. destruct H as (pv & _ & H). now injection H as <-.
Qed.
Lemma swp_drop s h (Q : unit -> hmerger -> heap -> Prop) E : Q tt (set_to s None (hm_off s) []) h -> swp drop_to s h Q E.
Proof. intros H. apply swp_bind. apply swp_get. now apply swp_put. Qed.
Lemma mst_put_leaf s ps L h0 R h h' a xs ys : mst O [] [] s (TLeaf a xs) ps L h0 R h ->
  wrote (Lm (TLeaf a xs) ps L) h (flat_map q_k ps ++ R) a (mkCell 1 (VLeaf ys) []) h' ->
  mst O [] [] (set_to s (Some a) (lenN ys) []) (TLeaf a ys) ps L h0 R h'.
Proof.
  intros [H1 H2 H3 H4 H5] (S & C & F & M). pose proof H4 as (_ & _ & ND).
  change (Lm (TLeaf a ys) ps L) with (a :: plocs ps ++ L) in *. unfold Lm in *. cbn [tlocs app tkids] in *.
  inversion ND as [|? ? Hn _]; subst. specialize (M _ Hn).
  constructor; unfold Lm; cbn [tlocs app tkids]; auto.
  - eapply pars_mv; [exact M| |exact H2]. intros z Hz. apply in_or_app. now left.
  - cbn. auto.
  - eapply mv_trans; [exact H5|]. eapply mv_weak; [exact M|]. intros z Hz. apply in_or_app. now right.
Qed.

Lemma hmerge_leaf_go_ok fuel : forall from m m' s L h0 R h,
  mgood O L h0 R m s h -> merge_leaf_go B fuel m from = Ok m' ->
  swp (hmerge_leaf_go B fuel from) s h (fun _ s' h' => mgood O L h0 R m' s' h') (broke O L h0 R).
Proof.
  induction fuel as [|f IH]; intros from m m' s L h0 R h (d & ps & Hm & Hy & Ht) E; [discriminate|].
  cbn [hmerge_leaf_go merge_leaf_go] in *. unfold curr_of in E.
  destruct (m_curr m) as [|cur curr] eqn:Ec; [discriminate|]. cbn [rbind] in E.
  apply swp_bind. eapply swp_curr; [rewrite (sy_curr _ _ _ _ Hy); exact Ec|]. apply swp_bind. apply swp_get.
  apply rbind_ok in E. destruct E as (to & Eto & E).
  apply swp_bind.
  assert (forall s1 h1 a, mst O [] [] s1 (TLeaf a to) ps L h0 R h1 -> msync O s1 ps m ->
    swp (sbind sget (fun s1 => match hm_to s1 with
        | None => sm mub
        | Some to =>
            if cur <? hm_off s1 then sm mub
            else
              sbind (sx may_throw) (fun _ =>
              sbind (sm (xs <~ load_leaf to ;; ys <~ mlift (rtakeN (hm_off s1) xs) ;;
                        put_leaf to (ys ++ takeN (N.min (lenN from) (cur - hm_off s1)) from))) (fun _ =>
              sbind (sput (set_to s1 (Some to) (hm_off s1 + N.min (lenN from) (cur - hm_off s1)) [])) (fun _ =>
              sbind (if cur =? hm_off s1 + N.min (lenN from) (cur - hm_off s1)
                     then sbind (hadd_child B O to (hm_off s1 + N.min (lenN from) (cur - hm_off s1))) (fun _ => drop_to)
                     else sret tt) (fun _ =>
              match dropN (N.min (lenN from) (cur - hm_off s1)) from with
              | [] => sret tt | from' => hmerge_leaf_go B f from' end))))
        end)) s1 h1 (fun _ s' h' => mgood O L h0 R m' s' h') (broke O L h0 R)) as Body.
  { clear s h d Hm Hy Ht Eto. intros s h a Hm Hy. apply swp_bind. apply swp_get.
    pose proof (ms_to _ _ _ _ _ _ _ _ _ _ Hm) as (_ & G2 & G3 & G4). rewrite G2, G3.
    destruct (cur <? lenN to) eqn:El; [discriminate|]. apply N.ltb_ge in El.
    set (tc := N.min (lenN from) (cur - lenN to)) in *.
    assert (lenN (to ++ takeN tc from) = lenN to + tc) as Elen by (rewrite lenN_app, lenN_takeN; lia).
    apply swp_bind. apply swp_sx. apply xwp_throw; [|intros _; exists (TLeaf a to), ps; exact Hm].
    apply swp_bind. apply swp_sm. apply wp_bind. eapply wp_load_leaf; [exact G4|]. apply wp_bind.
    eapply wp_lift; [now apply rtakeN_all|].
    eapply wp_put_leaf; [exact (ms_st _ _ _ _ _ _ _ _ _ _ Hm)|now left|exact G4|]. intros h1 W.
    apply swp_bind. apply swp_put. pose proof (mst_put_leaf _ _ _ _ _ _ _ _ _ _ Hm W) as Hm1. rewrite Elen in Hm1, E.
    apply (msync_set _ _ _ _ (Some a) (lenN to + tc) []) in Hy.
    apply rbind_ok in E. destruct E as (m1 & E1 & E). apply swp_bind.
    assert (forall s' h', mgood O L h0 R m1 s' h' ->
      swp (match dropN tc from with [] => sret tt | from' => hmerge_leaf_go B f from' end) s' h'
        (fun _ s' h' => mgood O L h0 R m' s' h') (broke O L h0 R)) as Next.
    { intros s' h' Hg. destruct (dropN tc from) as [|y ys]; [injection E as <-; now apply swp_ret|].
      eapply IH; eauto. }
    destruct (N.eqb_spec cur (lenN to + tc)) as [Ecur|Ecur].
    - assert (nsize (Leaf (to ++ takeN tc from)) = lenN to + tc) as Esz by (rewrite nsize_leaf; exact Elen).
      rewrite <- Esz in E1, Hm1, Hy |- *. apply swp_bind.
      eapply hadd_child_ok; [exact Hm1|exact Hy|exact E1|].
      intros q ps' s' h' Hm2 Hy2 _ _ _ _. apply swp_drop. apply Next.
      exists TNone, (snoc_kid q a (Leaf (to ++ takeN tc from)) :: ps'). split; [|split].
      + apply mst_leaf; [exact Hm2|]. pose proof (sy_lim _ _ _ _ Hy) as Hl. rewrite Ec in Hl. inversion Hl as [|? ? Hl1 _].
        cbn. rewrite Elen. unfold lim in *. lia.
      + now apply msync_set.
      + exact (add_child_to _ _ _ _ E1).
    - injection E1 as <-. apply swp_ret. apply Next. exists (TLeaf a (to ++ takeN tc from)), ps.
      split; [exact Hm1|]. split; [rewrite <- Ec; now apply msync_to|reflexivity]. }
  destruct d as [|a xs|a r ks ns].
  - rewrite (ms_to _ _ _ _ _ _ _ _ _ _ Hm : hm_to s = None). rewrite Ht in Eto. cbn in Eto. injection Eto as <-.
    apply swp_bind. apply swp_sx. apply xwp_bind. apply xwp_throw; [|intros _; exists TNone, ps; exact Hm].
    apply xwp_m. eapply wv_new_local; [exact (ms_st _ _ _ _ _ _ _ _ _ _ Hm)|]. intros a h1 S1 Hn Hc M1. apply swp_put.
    apply (Body _ _ a); [|now apply msync_set].
    destruct Hm as [H1 H2 H3 H4 H5]. unfold Lm in *. cbn [tlocs app tkids] in *.
    constructor; unfold Lm; cbn [tlocs app tkids]; auto.
    + eapply pars_mv; [exact M1| |exact H2]. intros z Hz. apply in_or_app. now left.
    + cbn. auto.
    + eapply mv_trans; [exact H5|]. eapply mv_weak; [exact M1|]. intros z Hz. apply in_or_app. now right.
  - pose proof (ms_to _ _ _ _ _ _ _ _ _ _ Hm) as (_ & G2 & _). rewrite G2. apply swp_ret.
    rewrite Ht in Eto. cbn in Eto. injection Eto as <-. eapply Body; eauto.
  - exfalso. destruct (ms_to _ _ _ _ _ _ _ _ _ _ Hm) as ((l & El & _) & _). discriminate.
Qed.

Lemma src_nrep cl x y s d ps L h0 R h a (n : node T) : mst cl x y s d ps L h0 R h -> nrep L h0 a n -> nrep (Lm d ps L) h a n.
Proof. intros Hm. apply (mv_nrep _ _ _ _ _ _ _ _ (ms_mv _ _ _ _ _ _ _ _ _ _ Hm) Logic.I). Qed.
Lemma src_crel cl x y s d ps L h0 R h v k p : mst cl x y s d ps L h0 R h -> crel v L h0 k p -> crel v (Lm d ps L) h k p.
Proof. intros Hm. apply (mv_crel _ _ _ _ _ _ _ _ _ _ _ (ms_mv _ _ _ _ _ _ _ _ _ _ Hm) Logic.I). Qed.

(** A node of the source becomes a child of the result. *)
Lemma share_ok cl a (n : node T) m m' s L h0 R h : mgood cl L h0 R m s h -> m_to m = None -> nrep L h0 a n -> wf cl n ->
  add_child B m n (nsize n) = Ok m' ->
  swp (sbind (hadd_child B cl a (nsize n)) (fun _ => sm (inc a))) s h (fun _ s' h' => mgood cl L h0 R m' s' h') (broke cl L h0 R).
Proof.
  intros (d & ps & Hm & Hy & Ht) Et Hn Hw E. apply swp_bind.
  assert (d = TNone) as -> by (rewrite Et in Ht; destruct d; [reflexivity|discriminate|discriminate]).
  eapply hadd_child_ok; [exact Hm|exact Hy|exact E|]. intros q ps' s' h' Hm2 Hy2 _ _ _ _.
  pose proof (src_nrep _ _ _ _ _ _ _ _ _ _ _ _ Hm2 Hn) as Hn2. apply swp_sm.
  eapply mst_inc; [exact Hm2|eapply srep_live; exact Hn2|]. intros h3 Hm3 M3.
  exists TNone, (snoc_kid q a n :: ps'). split; [|split].
  - eapply mst_close; [exact Hm3|exact (mv_nrep _ _ _ _ _ _ _ _ M3 Logic.I Hn2)|exact Hw].
  - exact Hy2.
  - exact (add_child_to _ _ _ _ E).
Qed.
Lemma hmerge_leaf_ok hp k p m m' s L h0 R h d ps : mst O [] [] s d ps L h0 R h ->
  msync O s ps m -> m_to m = tval d -> crel O L h0 k p -> haddr hp = Ok (caddr k) -> prel (Lm d ps L) h hp p -> merge_leaf B BL m p = Ok m' ->
  swp (hmerge_leaf B BL hp) s h (fun _ s' h' => mgood O L h0 R m' s' h') (broke O L h0 R).
Proof.
  intros Hm Hy Ht (n & Hn & _ & Hok & Hs) Ea Hp E.
  assert (mgood O L h0 R m s h) as Hg by (exists d, ps; auto).
  unfold merge_leaf in E. rewrite (pos_ok_node _ _ _ _ _ Hok) in E. cbn [rbind] in E.
  rewrite (psize_ok _ _ _ _ _ Hok Hs) in E. cbn [rbind] in E.
  apply rbind_ok in E. destruct E as (kk & Ek & E). apply rbind_ok in E. destruct E as (xs & Exs & E).
  apply rbind_ok in E. destruct E as (cur & Ecur & E).
  apply swp_bind. apply swp_sm. eapply wp_lift; [exact Ea|].
  apply swp_bind. apply swp_sm. eapply wp_view; [exact Hp|].
  apply swp_bind. apply swp_sm. eapply wp_lift; [rewrite psize_blank; exact (psize_ok _ _ _ _ _ Hok Hs)|].
  apply swp_bind. apply swp_sm. eapply wp_lift; [rewrite count_blank; exact Ek|].
  unfold curr_of in Ecur. destruct (m_curr m) as [|c0 curr] eqn:Ec; [discriminate|]. injection Ecur as ->.
  apply swp_bind. eapply swp_curr; [rewrite (sy_curr _ _ _ _ Hy); exact Ec|]. apply swp_bind. apply swp_get.
  destruct (nsize n =? 0); [discriminate|]. cbv zeta.
  pose proof (pos_ok_wf _ _ _ _ _ Hok) as Hw.
  destruct (wf_leaf _ _ _ Hw) as (zs & -> & _). injection Exs as ->.
  assert (forall (E : (ys <- rtakeN kk xs ;; merge_leaf_go B (S (length ys)) m ys) = Ok m'),
    swp (sbind (sm (xs <~ load_leaf (caddr k) ;; mlift (rtakeN kk xs))) (fun xs => hmerge_leaf_go B (S (length xs)) xs)) s h
      (fun _ s' h' => mgood O L h0 R m' s' h') (broke O L h0 R)) as Copy.
  { clear E. intros E. apply rbind_ok in E. destruct E as (ys & Eys & E).
    destruct (nrep_leaf_inv _ _ _ _ (src_nrep _ _ _ _ _ _ _ _ _ _ _ _ Hm Hn)) as [rc Hc].
    apply swp_bind. apply swp_sm. apply wp_bind. eapply wp_load_leaf; [apply (at_wipe _ _ _ _ Hc)|].
    eapply wp_lift; [exact Eys|]. eapply hmerge_leaf_go_ok; eauto. }
  assert (hm_to s = match d with TNone => None | TLeaf a _ | TInner a _ _ _ => Some a end) as Eto.
  { pose proof (ms_to _ _ _ _ _ _ _ _ _ _ Hm) as G. destruct d; cbn in G; [exact G|now destruct G as (_ & G & _)..]. }
  rewrite Eto. rewrite Ht in E. destruct d as [|a ys|a r ks ns]; cbn [tval] in E; [|now apply Copy..].
  destruct (cur =? kk); [|now apply Copy].
  eapply share_ok; [exact Hg|exact Ht|exact Hn|exact Hw|exact E].
Qed.

(** ** Merging inner nodes *)
Lemma lm_inner a r ks ns ps L : Lm (TInner a r ks ns) ps L = r :: a :: plocs ps ++ L.
Proof. reflexivity. Qed.
(** to_ gets more children. *)
Lemma wp_more cl s a r ks ns new newn tz o ps L h0 R h (Q : nat -> heap -> Prop) :
  mst cl [] [] s (TInner a r ks ns) ps L h0 R h -> Forall2 (nrep L h0) new newn ->
  o = hm_off s -> tz = sums 0 (map nsize (ns ++ newn)) -> (forall l, cl = S l -> Forall (wf l) newn) ->
  (forall h', mst cl [] [] (set_to s (Some a) (lenN (ns ++ newn)) tz) (TInner a r (ks ++ new) (ns ++ newn)) ps L h0 R h' -> Q r h') ->
  wp (' (r, ks) <~ load_inner a ;;
      match r with
      | None => mub
      | Some r =>
          ks' <~ mlift (rtakeN o ks) ;;
          _ <~ put_inner a (Some r) (ks' ++ new) ;;
          _ <~ each_of inc new ;;
          mret r
      end) h Q.
Proof.
  intros Hm Hn -> -> Hwn K. pose proof Hm as [H1 H2 (G1 & G2 & G3 & G4 & G5 & [sz G6] & G7) H4 H5].
  pose proof (F2_len _ _ _ G7) as El. pose proof H4 as (_ & _ & ND). rewrite lm_inner in ND.
  inversion ND as [|? ? N1 ND1]; subst. inversion ND1 as [|? ? N2 _]; subst.
  assert (r <> a) as Nra by (intros ->; apply N1; now left).
  apply wp_bind. eapply wp_load_inner; [exact G5|]. apply wp_bind. eapply wp_lift; [apply rtakeN_all; lia|].
  apply wp_bind. eapply wp_put_inner; [exact H4|right; now left|exact G5|]. intros h1 (S1 & C1 & F1 & M1).
  rewrite lm_inner in *. assert (mv None (r :: plocs ps ++ L) (r :: a :: plocs ps ++ L) (r :: a :: plocs ps ++ L) h h1) as M1'.
  { apply M1. intros [E|E]; [now apply Nra|exact (N2 E)]. }
  assert (mv None L L (r :: a :: plocs ps ++ L) h0 h1) as M01.
  { eapply mv_trans; [exact H5|]. eapply mv_weak; [exact M1'|]. intros z Hz. right. apply in_or_app. now right. }
  apply wp_bind. eapply wv_incs; [exact S1| |].
  { eapply nreps_live. eapply mv_nreps; [exact M01|intros; exact I|exact Hn]. }
  intros h2 S2 M2. apply wp_ret. apply K.
  assert (mv None (r :: plocs ps ++ L) (r :: a :: plocs ps ++ L) (r :: a :: plocs ps ++ L) h h2) as M12.
  { eapply mv_trans; [exact M1'|]. eapply mv_weak; [exact M2|]. intros z [->|Hz]; [now left|]. right. now right. }
  assert (mv None L L (r :: a :: plocs ps ++ L) h0 h2) as M02.
  { eapply mv_trans; [exact M01|]. eapply mv_weak; [exact M2|]. intros z Hz. right. right. apply in_or_app. now right. }
  constructor; rewrite ?lm_inner; cbn [set_to hm_nodes]; auto.
  - eapply pars_mv; [exact M12| |exact H2]. intros z Hz. right. apply in_or_app. now left.
  - cbn [tat set_to hm_to hm_off hm_tosz]. split.
    { destruct G1 as (l & -> & Hw). exists l. split; [reflexivity|]. apply Forall_app. split; [exact Hw|now apply Hwn]. }
    split; [reflexivity|]. split; [reflexivity|]. split; [reflexivity|].
    split; [eapply mv_local; [exact M2|right; now left|exact C1]|].
    split; [exists sz; eapply mv_local; [exact M12|now left|exact G6]|].
    apply Forall2_app; [eapply mv_nreps; [exact M12|intros; exact I|exact G7]|eapply mv_nreps; [exact M02|intros; exact I|exact Hn]].
  - eapply st_eqv; [|exact S2]. intros z. cbn [tkids]. rewrite !occ_app. lia.
Qed.
(** Its table is completed. *)
Lemma wp_seal cl s a r ks ns ps L h0 R h (Q : unit -> heap -> Prop) :
  mst cl [] [] s (TInner a r ks ns) ps L h0 R h ->
  (forall h', mst cl [] [] s (TInner a r ks ns) ps L h0 R h' ->
     cell_at h' r (mkCell 1 (VTable cl (sums 0 (map nsize ns))) []) -> Q tt h') ->
  wp (put_table r (sums 0 (map nsize ns))) h Q.
Proof.
  intros Hm K. pose proof Hm as [H1 H2 (G1 & G2 & G3 & G4 & G5 & [sz G6] & G7) H4 H5].
  pose proof H4 as (_ & _ & ND). rewrite lm_inner in ND. inversion ND as [|? ? N1 ND1]; subst.
  eapply wp_put_table; [exact H4|now left|exact G6|]. intros h1 (S1 & C1 & F1 & M1). apply K; [|exact C1].
  rewrite lm_inner in *. specialize (M1 _ N1). constructor; rewrite ?lm_inner; auto.
  - eapply pars_mv; [exact M1| |exact H2]. intros z Hz. right. apply in_or_app. now left.
  - split; [exact G1|]. split; [exact G2|]. split; [exact G3|]. split; [exact G4|].
    split; [eapply mv_local; [exact M1|now left|exact G5]|]. split; [eexists; exact C1|].
    eapply mv_nreps; [exact M1|intros; exact I|exact G7].
  - eapply mv_trans; [exact H5|]. eapply mv_weak; [exact M1|]. intros z Hz. right. apply in_or_app. now right.
Qed.
Lemma F2_slice {C D} (P : C -> D -> Prop) i j u w v : Forall2 P u w -> rsliceN i j w = Ok v ->
  exists v', rsliceN i j u = Ok v' /\ Forall2 P v' v.
Proof.
  intros H E. apply rsliceN_inv in E. destruct E as [Hb ->]. pose proof (F2_len _ _ _ H) as El.
  exists (takeN (j - i) (dropN i u)). split; [apply rsliceN_len; lia|]. apply F2_take. now apply F2_drop.
Qed.

Lemma hmerge_inner_go_ok fuel l p n cs : pos_ok (S l) p n -> is_sub p = true -> forall off k m m' s L h0 R h,
  mgood (S l) L h0 R m s h -> Forall2 (nrep L h0) cs (kids n) ->
  merge_inner_go B BL fuel m (S l) p (kids n) off k = Ok m' ->
  swp (hmerge_inner_go B BL fuel (S l) (blank p) cs off k) s h (fun _ s' h' => mgood (S l) L h0 R m' s' h') (broke (S l) L h0 R).
Proof.
  intros Hok Hsub. induction fuel as [|f IH]; intros off k m m' s L h0 R h (d & ps & Hm & Hy & Ht) Hcs E; [discriminate|].
  cbn [hmerge_inner_go merge_inner_go] in *. unfold curr_of in E.
  destruct (m_curr m) as [|cur curr] eqn:Ec; [discriminate|]. cbn [rbind] in E.
  apply swp_bind. eapply swp_curr; [rewrite (sy_curr _ _ _ _ Hy); exact Ec|]. apply swp_bind. apply swp_get.
  apply rbind_ok in E. destruct E as ([tosz tocs] & Eto & E).
  apply swp_bind.
  assert (forall s1 h1 a r ks, tosz = sums 0 (map nsize tocs) -> mst (S l) [] [] s1 (TInner a r ks tocs) ps L h0 R h1 -> msync (S l) s1 ps m ->
    swp (sbind sget (fun s1 => match hm_to s1 with
        | None => sm mub
        | Some to =>
            if cur <? hm_off s1 then sm mub
            else
              sbind (sm (mlift (rsliceN off (off + N.min (k - off) (cur - hm_off s1)) cs))) (fun new =>
              sbind (sm (' (r, ks) <~ load_inner to ;;
                        match r with
                        | None => mub
                        | Some r =>
                            ks' <~ mlift (rtakeN (hm_off s1) ks) ;;
                            _ <~ put_inner to (Some r) (ks' ++ new) ;;
                            _ <~ each_of inc new ;;
                            mret r
                        end)) (fun r =>
              sbind (sm (mlift (if lenN (hm_tosz s1) =? 0 then Ok 0 else last_of (hm_tosz s1)))) (fun to_size =>
              sbind (sm (mlift (copy_sizes B BL (S l) (blank p) off (N.min (k - off) (cur - hm_off s1)) to_size))) (fun nsz =>
              sbind (sput (set_to s1 (Some to) (hm_off s1 + N.min (k - off) (cur - hm_off s1)) (hm_tosz s1 ++ nsz))) (fun _ =>
              sbind (sm (mlift (last_of (hm_tosz s1 ++ nsz)))) (fun sz =>
              sbind (if cur =? hm_off s1 + N.min (k - off) (cur - hm_off s1) then
                       sbind (sm (put_table r (hm_tosz s1 ++ nsz))) (fun _ => sbind (hadd_child B (S l) to sz) (fun _ => drop_to))
                     else sret tt) (fun _ =>
              if off + N.min (k - off) (cur - hm_off s1) =? k then sret tt
              else hmerge_inner_go B BL f (S l) (blank p) cs (off + N.min (k - off) (cur - hm_off s1)) k)))))))
        end)) s1 h1 (fun _ s' h' => mgood (S l) L h0 R m' s' h') (broke (S l) L h0 R)) as Body.
  { clear s h d Hm Hy Ht Eto. intros s h a r ks -> Hm Hy. apply swp_bind. apply swp_get.
    pose proof (ms_to _ _ _ _ _ _ _ _ _ _ Hm) as ((l' & El' & Gw) & G2 & G3 & G4 & _). injection El' as <-. rewrite G2, G3, G4.
    destruct (cur <? lenN tocs) eqn:El; [discriminate|]. apply N.ltb_ge in El.
    set (tc := N.min (k - off) (cur - lenN tocs)) in *.
    apply rbind_ok in E. destruct E as (newn & Enew & E).
    apply rbind_ok in E. destruct E as (to_size & Ets & E). apply rbind_ok in E. destruct E as (nsz & Ensz & E).
    apply rbind_ok in E. destruct E as (sz' & Esz' & E). apply rbind_ok in E. destruct E as (m1 & E1 & E).
    destruct (F2_slice _ _ _ _ _ _ Hcs Enew) as (new & Enew' & Hnew).
    apply rsliceN_inv in Enew. destruct Enew as [Hb Enewn]. replace (off + tc - off) with tc in Enewn by lia.
    assert (lenN newn = tc) as Eln by (rewrite Enewn, lenN_takeN, lenN_dropN; lia).
    assert (lenN (tocs ++ newn) = lenN tocs + tc) as Elen by (rewrite lenN_app; lia).
    assert (kids n = takeN off (kids n) ++ newn ++ dropN tc (dropN off (kids n))) as Ekids.
    { rewrite Enewn, takeN_dropN. symmetry. apply takeN_dropN. }
    pose proof (copy_sizes_ok B BL l p n _ newn _ to_size Hok Hsub Ekids) as Ecs.
    rewrite lenN_takeN, N.min_l, Eln in Ecs by lia. rewrite Ensz in Ecs. injection Ecs as ->.
    assert (to_size = csize tocs) as ->.
    { rewrite lenN_sums, lenN_map in Ets. destruct (N.eqb_spec (lenN tocs) 0) as [Z|Z].
      - apply lenN_0 in Z. subst tocs. now injection Ets as <-.
      - rewrite last_table in Ets by (intros ->; easy). now injection Ets as <-. }
    assert (sums 0 (map nsize tocs) ++ sums (csize tocs) (map nsize newn) = sums 0 (map nsize (tocs ++ newn))) as Etz.
    { rewrite map_app, sums_app. reflexivity. }
    rewrite Etz in E1, Esz'.
    assert (Forall (wf l) newn) as Hwn.
    { pose proof (wf_kids _ _ _ _ (pos_ok_wf _ _ _ _ _ Hok)) as Hk. rewrite Ekids in Hk.
      apply Forall_app in Hk. destruct Hk as [_ Hk]. apply Forall_app in Hk. apply Hk. }
    apply swp_bind. apply swp_sm. eapply wp_lift; [exact Enew'|]. apply swp_bind. apply swp_sm.
    eapply wp_more with (tz := sums 0 (map nsize (tocs ++ newn))); [exact Hm|exact Hnew|now symmetry|reflexivity|intros l0 El0; injection El0 as <-; exact Hwn|].
    intros h1 Hm1. rewrite Elen in Hm1.
    apply swp_bind. apply swp_sm. eapply wp_lift; [exact Ets|].
    apply swp_bind. apply swp_sm. eapply wp_lift; [rewrite copy_sizes_blank; exact Ensz|].
    apply swp_bind. apply swp_put. rewrite Etz.
    apply swp_bind. apply swp_sm. eapply wp_lift; [exact Esz'|].
    apply (msync_set _ _ _ _ (Some a) (lenN tocs + tc) (sums 0 (map nsize (tocs ++ newn)))) in Hy.
    apply swp_bind.
    assert (forall s' h', mgood (S l) L h0 R m1 s' h' ->
      swp (if off + tc =? k then sret tt else hmerge_inner_go B BL f (S l) (blank p) cs (off + tc) k) s' h'
        (fun _ s' h' => mgood (S l) L h0 R m' s' h') (broke (S l) L h0 R)) as Next.
    { intros s' h' Hg. destruct (off + tc =? k); [injection E as <-; now apply swp_ret|].
      eapply IH; eauto. }
    rewrite Elen in E1. destruct (N.eqb_spec cur (lenN tocs + tc)) as [Ecur|Ecur].
    - set (nn := Inner (Some (sums 0 (map nsize (tocs ++ newn)))) (tocs ++ newn)) in *.
      assert (wf (S l) nn) as Hwnn.
      { apply rel_wf_intro; [|apply Forall_app; split; assumption]. rewrite Elen.
        pose proof (sy_lim _ _ _ _ Hy) as Hl. rewrite Ec in Hl. inversion Hl as [|? ? Hl1 _]. unfold lim in Hl1. lia. }
      assert (sz' = nsize nn) as ->.
      { unfold nn. rewrite nsize_inner. rewrite last_table in Esz'; [now injection Esz' as <-|].
        intros Z. apply (f_equal lenN) in Z. pose proof (sy_lim _ _ _ _ Hy) as Hl. rewrite Ec in Hl.
        inversion Hl as [|? ? Hl1 _]. rewrite Elen in Z. change (lenN (@nil (node T))) with 0 in Z. lia. }
      apply swp_bind. apply swp_sm. eapply wp_seal; [exact Hm1|]. intros h2 Hm2 Hr2. apply swp_bind.
      eapply hadd_child_ok; [exact Hm2|exact Hy|exact E1|].
      intros q ps' s' h' Hm3 Hy3 M3 _ _ _. apply swp_drop. apply Next.
      exists TNone, (snoc_kid q a nn :: ps'). split; [|split].
      + eapply mst_inner; [exact Hm3|eapply mv_local; [exact M3|now left|exact Hr2]|exact Hwnn].
      + now apply msync_set.
      + exact (add_child_to _ _ _ _ E1).
    - injection E1 as <-. apply swp_ret. apply Next. exists (TInner a r (ks ++ new) (tocs ++ newn)), ps.
      split; [exact Hm1|]. split; [rewrite <- Ec; now apply msync_to|reflexivity]. }
  destruct d as [|a xs|a r ks ns].
  - rewrite (ms_to _ _ _ _ _ _ _ _ _ _ Hm : hm_to s = None). rewrite Ht in Eto. cbn in Eto. injection Eto as <- <-.
    apply swp_bind. apply swp_sx. eapply xwp_make_inner_r; [exact (ms_st _ _ _ _ _ _ _ _ _ _ Hm)| |].
    2: { intros h' _ S' M'. exists TNone, ps. eapply mst_mv; eauto. }
    intros a r h1 S1 Ha Hr M1. apply swp_put.
    apply (Body _ _ a r []); [reflexivity| |now apply msync_set].
    destruct Hm as [H1 H2 H3 H4 H5]. unfold Lm in *. cbn [tlocs app tkids] in *.
    constructor; rewrite ?lm_inner; cbn [tkids app]; auto.
    + eapply pars_mv; [exact M1| |exact H2]. intros z Hz. apply in_or_app. now left.
    + cbn. split; [exists l; auto|]. do 3 (split; [reflexivity|]). split; [exact Ha|]. split; [eexists; exact Hr|constructor].
    + eapply mv_trans; [exact H5|]. eapply mv_weak; [exact M1|]. intros z Hz. apply in_or_app. now right.
  - exfalso. destruct (ms_to _ _ _ _ _ _ _ _ _ _ Hm) as (El & _). discriminate.
  - pose proof (ms_to _ _ _ _ _ _ _ _ _ _ Hm) as (_ & G2 & _). rewrite G2. apply swp_ret.
    rewrite Ht in Eto. cbn in Eto. injection Eto as <- <-. eapply Body; eauto.
Qed.

Lemma hmerge_inner_ok l hp k p m m' s L h0 R h d ps : mst (S l) [] [] s d ps L h0 R h ->
  msync (S l) s ps m -> m_to m = tval d -> crel (S l) L h0 k p -> haddr hp = Ok (caddr k) -> prel (Lm d ps L) h hp p ->
  merge_inner B BL m (S l) p = Ok m' ->
  swp (hmerge_inner B BL (S l) hp) s h (fun _ s' h' => mgood (S l) L h0 R m' s' h') (broke (S l) L h0 R).
Proof.
  intros Hm Hy Ht (n & Hn & _ & Hok & Hs) Ea Hp E.
  assert (mgood (S l) L h0 R m s h) as Hg by (exists d, ps; auto).
  unfold merge_inner in E. rewrite (pos_ok_node _ _ _ _ _ Hok) in E. cbn [rbind] in E.
  rewrite (psize_ok _ _ _ _ _ Hok Hs) in E. cbn [rbind] in E.
  apply rbind_ok in E. destruct E as (kk & Ek & E). apply rbind_ok in E. destruct E as (ns & Ens & E).
  apply rbind_ok in E. destruct E as (cur & Ecur & E).
  apply swp_bind. apply swp_sm. eapply wp_lift; [exact Ea|].
  apply swp_bind. apply swp_sm. eapply wp_view; [exact Hp|].
  apply swp_bind. apply swp_sm. eapply wp_lift; [rewrite psize_blank; exact (psize_ok _ _ _ _ _ Hok Hs)|].
  apply swp_bind. apply swp_sm. eapply wp_lift; [rewrite count_blank; exact Ek|].
  unfold curr_of in Ecur. destruct (m_curr m) as [|c0 curr] eqn:Ec; [discriminate|]. injection Ecur as ->.
  apply swp_bind. eapply swp_curr; [rewrite (sy_curr _ _ _ _ Hy); exact Ec|]. apply swp_bind. apply swp_get.
  destruct (nsize n =? 0); [discriminate|]. cbv zeta.
  pose proof (pos_ok_wf _ _ _ _ _ Hok) as Hw.
  destruct (wf_inner _ _ _ _ Hw) as (o & ns' & ->). injection Ens as ->.
  assert (forall (E : merge_inner_go B BL (S (N.to_nat kk)) m (S l) p ns 0 kk = Ok m'),
    swp (sbind (sm (' (_, cs) <~ load_inner (caddr k) ;; mret cs))
           (fun cs => hmerge_inner_go B BL (S (N.to_nat kk)) (S l) (blank p) cs 0 kk)) s h
      (fun _ s' h' => mgood (S l) L h0 R m' s' h') (broke (S l) L h0 R)) as Copy.
  { clear E. intros E.
    destruct (nrep_inner_inv _ _ _ _ _ Hn) as (rc & r & cs & Hc & _ & Hk).
    destruct (mv_cell _ _ _ _ _ _ _ _ (ms_mv _ _ _ _ _ _ _ _ _ _ Hm) Logic.I Hc) as ([rc' b' ks'] & Hc' & Eb & Ekk).
    cbn in Eb, Ekk. subst b' ks'. change (mkCell rc' _ (ptrs r cs)) with (icell (T := T) rc' r cs) in Hc'.
    apply swp_bind. apply swp_sm. apply wp_bind. eapply wp_load_inner; [apply (at_wipe _ _ _ _ Hc')|].
    apply wp_ret. eapply hmerge_inner_go_ok; eauto. }
  assert (hm_to s = match d with TNone => None | TLeaf a _ | TInner a _ _ _ => Some a end) as Eto.
  { pose proof (ms_to _ _ _ _ _ _ _ _ _ _ Hm) as G. destruct d; cbn in G; [exact G|now destruct G as (_ & G & _)..]. }
  rewrite Eto. rewrite Ht in E. destruct d as [|a ys|a r ks ks']; cbn [tval] in E; [|now apply Copy..].
  destruct (cur =? kk); [|now apply Copy].
  eapply share_ok; [exact Hg|exact Ht|exact Hn|exact Hw|exact E].
Qed.

Lemma hmerge_all_ok cl ks ps : forall m m' s L h0 R h, mgood cl L h0 R m s h -> Forall2 (crel cl L h0) ks ps ->
  merge_all B BL cl m ps = Ok m' ->
  swp (hmerge_all B BL cl ks) s h (fun _ s' h' => mgood cl L h0 R m' s' h') (broke cl L h0 R).
Proof.
  revert ps. induction ks as [|k ks IH]; intros ps m m' s L h0 R h Hg Hk E; inversion Hk as [|? p ? ps' Hk1 Hk2]; subst;
    cbn [hmerge_all merge_all] in *.
  - injection E as <-. now apply swp_ret.
  - apply rbind_ok in E. destruct E as (m1 & E1 & E). pose proof Hg as (d & ps & Hm & Hy & Ht).
    apply swp_bind. apply swp_sm.
    eapply wp_copen; [exact (src_crel _ _ _ _ _ _ _ _ _ _ _ _ _ Hm Hk1)|]. intros q Eq Hq. apply swp_bind.
    eapply swp_mono with (Q := fun _ s' h' => mgood cl L h0 R m1 s' h') (E := broke cl L h0 R);
      [| |auto].
    + destruct cl; [eapply hmerge_leaf_ok|eapply hmerge_inner_ok]; eauto.
    + intros _ s' h' Hg'. eapply IH; eauto.
Qed.
End Merge.
