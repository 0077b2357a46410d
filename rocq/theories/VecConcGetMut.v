(** get_mut_visitor in the memory of several threads: the nodes down to the element become the
    thread's own, and stay so until it is written. *)
From Coq Require Import List NArith Arith Bool Lia Permutation ZifyN ZifyNat ZifyBool.
From Verif Require Import Common NList Rrb RrbInv RrbPos RrbOps RrbSlice RrbViewOk AtomProofs
  RcHeap RcProofs Conc ConcProofs ChampConcProofs VecHeap VecPlan VecNodes VecMake VecGetMut VecTree VecProgSpec VecProg
  VecConc VecConcProofs.
Import ListNotations.
Local Open Scope N_scope.
Set Default Goal Selector "!".

Section VCG.
Context {T : Type}.
Variables B BL : N.
Variable G : list nat.
Notation body := (vbody T).
Notation heap := (heap body). Notation cell := (cell body).
Notation nd := (node T).
Notation pos_ok := (@pos_ok T B BL).
Notation wf := (@wf T B BL).
Notation kok := (@kok T B BL).
Notation kpos := (@kpos T B BL).
Notation cwp := (cwp G).
Notation own := (own G).
Notation vis := (vis G).
Notation iv := (iv G).
Notation ot := (ot G).
Notation nvis := (nvis G).
Notation prel := (prel G).
Notation post A := (A -> list nat -> list nat -> heap -> Prop).
Notation enc := (@enc T).
Implicit Types (h : heap).

(** The end of a program may be rearranged like its beginning. *)
Lemma cwp_seal {A} (p : prog body A) (F : post A) L R h :
  cwp p (fun a L R h => cwp (Done a) F L R h) L R h -> cwp p F L R h.
Proof.
  revert L R h. induction p as [a| |D q k IH]; intros L R h H; cbn in *; intros Le Re HG S.
  - destruct (H Le Re HG S) as (L' & R' & S' & Sh & H'). destruct (H' Le Re HG S') as (L2 & R2 & S2 & Sh2 & HF).
    exists L2, R2. split; [exact S2|]. split; [eapply shift_trans; eauto|exact HF].
  - exact (H Le Re HG S).
  - destruct (H Le Re HG S) as (A1 & E & K). split; [exact A1|]. split; [exact E|].
    intros x h1 Hc. destruct (K x h1 Hc) as (L1 & R1 & S1 & Rl & Lg & K'). exists L1, R1.
    split; [exact S1|]. split; [exact Rl|]. split; [exact Lg|]. intros h2 H2. apply IH. exact (K' h2 H2).
Qed.

(** Asking whether a node has one reference; if so it is taken. *)
Lemma cwp_uq_iv a r cs o ns (F : post bool) L R h : iv L (a :: R) h a r cs o ns ->
  (forall h', rely L (G ++ a :: R) h h' -> F false L (a :: R) h') ->
  (forall h', rely L (G ++ R) h h' -> cell_at h' a (icell 1 r cs) -> iv (a :: L) (ptrs r cs ++ R) h' a r cs o ns ->
     F true (a :: L) (ptrs r cs ++ R) h') -> cwp (uq a) F L (a :: R) h.
Proof.
  intros Hi K1 K2. eapply cwp_uq; [reflexivity|exact K1|]. intros c h1 Hc E R1.
  destruct (vis_cell _ _ _ _ _ _ _ _ (iv_vis _ _ _ _ _ _ _ _ _ Hi) Hc) as [Eb Ek]. rewrite Ek in *.
  apply K2; [rl| |].
  - eapply rely_local; [exact R1|now left|]. destruct c as [rc b ks]. cbn in *. subst. exact Hc.
  - eapply iv_rely; [exact R1|]. eapply iv_take; [exact Hi|now left|inc].
Qed.
Lemma cwp_uq_leaf a xs (F : post bool) L R h : vis L (a :: R) h a (VLeaf xs) [] ->
  (forall h', rely L (G ++ a :: R) h h' -> F false L (a :: R) h') ->
  (forall h', rely L (G ++ R) h h' -> cell_at h' a (mkCell 1 (VLeaf xs) []) -> F true (a :: L) R h') -> cwp (uq a) F L (a :: R) h.
Proof.
  intros Hi K1 K2. eapply cwp_uq; [reflexivity|exact K1|]. intros c h1 Hc E R1.
  destruct (vis_cell _ _ _ _ _ _ _ _ Hi Hc) as [Eb Ek]. rewrite Ek in *. cbn [app] in *.
  apply K2; [rl|]. eapply rely_local; [exact R1|now left|]. destruct c as [rc b ks]. cbn in *. subst. exact Hc.
Qed.

(** From [a] down to the leaf [lf] every node is the thread's own: [P] are these nodes, [Q] the
    references to what they refer to besides. Applying [fn] to the element [off] of the leaf makes
    the tree [n'] of it. *)
Inductive opath (fn : T -> T) h : nat -> list nat -> list nat -> nat -> N -> nd -> Prop :=
| op_leaf a xs i x : cell_at h a (mkCell 1 (VLeaf xs) []) -> rnthN xs i = Ok x ->
    opath fn h a [a] [] a i (Leaf (updN i (fn x) xs))
| op_inner a r ca c cb o na x nb P Q lf off : cell_at h a (icell 1 r (ca ++ c :: cb)) ->
    ot (ptrs r (ca ++ cb)) h r (lv1 (na ++ x :: nb)) o -> Forall2 (own (ptrs r (ca ++ cb)) h) ca (map enc na) ->
    Forall2 (own (ptrs r (ca ++ cb)) h) cb (map enc nb) -> opath fn h c P Q lf off x ->
    opath fn h a (a :: P) (ptrs r (ca ++ cb) ++ Q) lf off (Inner o (na ++ x :: nb)).

Lemma opath_rely fn L R h h' a P Q lf off n : rely L (G ++ R) h h' -> incl P L -> incl Q R ->
  opath fn h a P Q lf off n -> opath fn h' a P Q lf off n.
Proof.
  intros Rl HP HQ Ho. revert HP HQ.
  induction Ho as [a xs i x Hc Hx|a r ca c cb o na x nb P Q lf off Hc Ho Ha Hb Hp IH]; intros HP HQ.
  - constructor; [|exact Hx]. eapply rely_local; [exact Rl|apply HP; now left|exact Hc].
  - assert (Rl' : rely L (G ++ ptrs r (ca ++ cb)) h h').
    { eapply rely_incl; [apply incl_refl| |exact Rl]. intros z Hz. apply in_app_or in Hz as [Hz|Hz]; apply in_or_app; [now left|].
      right. apply HQ. apply in_or_app. now left. }
    econstructor.
    + eapply rely_local; [exact Rl|apply HP; now left|exact Hc].
    + eapply ot_rely; [exact Rl'|exact Ho].
    + eapply owns_rely; [exact Rl'|exact Ha].
    + eapply owns_rely; [exact Rl'|exact Hb].
    + apply IH; [intros z Hz; apply HP; now right|]. intros z Hz. apply HQ. apply in_or_app. now right.
Qed.

(** Writing the element gives the nodes back. *)
Lemma cwp_write fn h a P Q lf off n : opath fn h a P Q lf off n -> forall (F : post unit) L R,
  (forall h', rely L (G ++ R) h h' -> own (a :: R) h' a (enc n) -> F tt L (a :: R) h') ->
  cwp (xs <-- t_leaf lf ;; x <-- plift (rnthN xs off) ;; t_put_leaf lf (updN off (fn x) xs)) F (P ++ L) (Q ++ R) h.
Proof.
  induction 1 as [a xs i x Hc Hx|a r ca c cb o na x nb P Q lf off Hc Ho Ha Hb Hp IH]; intros F L R K; cbn [app].
  - apply cwp_bind. eapply cwp_leaf; [eapply loc_vis; [reflexivity|exact Hc]|]. intros h1 R1.
    apply cwp_bind. eapply cwp_lift; [exact Hx|]. apply cwp_seal.
    eapply cwp_put_leaf; [reflexivity|eapply rely_local; [exact R1|now left|exact Hc]|]. intros h2 R2 Hc2.
    eapply cwp_pub_leaf; [exact Hc2|]. intros Ho. apply cwp_done. apply K; [rl|exact Ho].
  - apply cwp_eqv with (L' := P ++ a :: L) (R' := Q ++ ptrs r (ca ++ cb) ++ R); [apply Permutation_middle|oc|].
    apply cwp_seal. apply IH. intros h1 R1 Hx.
    assert (Rl : rely (a :: L) (G ++ ptrs r (ca ++ cb)) h h1) by rl.
    eapply cwp_pub_inner with (R := R) (o := o) (ns := na ++ x :: nb);
      [eapply rely_local; [exact R1|now left|exact Hc]|destruct r; oc| | |].
    + apply ot_incl with (R := ptrs r (ca ++ cb)); [inc|]. eapply ot_rely; [exact Rl|exact Ho].
    + rewrite map_app. cbn [map]. apply Forall2_app; [|constructor].
      * apply owns_incl with (R := ptrs r (ca ++ cb)); [inc|]. eapply owns_rely; [exact Rl|exact Ha].
      * eapply own_incl; [|exact Hx]. inc.
      * apply owns_incl with (R := ptrs r (ca ++ cb)); [inc|]. eapply owns_rely; [exact Rl|exact Hb].
    + intros Hn. apply cwp_done. apply K; [rl|exact Hn].
Qed.

Lemma t_get_mut_ok fn v : forall hp p n n' a idx (F : post (nat * (nat * N))) L R h,
  haddr hp = Ok a -> prel L (a :: R) h hp p -> pos_ok v p n -> update_node B BL v p idx fn = Ok n' ->
  (forall b lf off P Q h', rely L (G ++ R) h h' -> opath fn h' b P Q lf off n' ->
     F (b, (lf, off)) (P ++ L) (Q ++ R) h') ->
  cwp (t_get_mut B BL v hp idx) F L (a :: R) h.
Proof.
  induction v as [|l IH]; intros hp p n n' a idx F L R h Ea Hp Hok Hu K; cbn [t_get_mut update_node] in *.
  - apply rbind_ok in Hu. destruct Hu as (off & Hoff & Hu). apply rbind_ok in Hu. destruct Hu as (k & Hk & Hu).
    apply rbind_ok in Hu. destruct Hu as (nd & Hnd & Hu). apply rbind_ok in Hu. destruct Hu as (xs & Hxs & Hu).
    apply rbind_ok in Hu. destruct Hu as (ys & Hys & Hu). apply rbind_ok in Hu. destruct Hu as (x & Hx & Hu).
    injection Hu as <-. destruct nd as [xs'|]; [|discriminate]. injection Hxs as ->.
    rewrite (pos_ok_node _ _ _ _ _ Hok) in Hnd. injection Hnd as ->.
    assert (ys = xs) as ->.
    { pose proof (count_ok _ _ _ _ _ Hok) as Hk'. rewrite Hk in Hk'. injection Hk' as ->. cbn [ncount] in Hys.
      apply rtakeN_inv in Hys. destruct Hys as [_ ->]. apply takeN_all. lia. }
    apply cwp_bind. eapply cwp_lift; [exact Ea|]. apply cwp_bind. eapply cwp_view; [exact Hp|]. intros h1 R1.
    eapply prel_rely in Hp; [|exact R1].
    pose proof (prel_nvis _ _ _ _ _ _ _ _ Hp Ea (pos_ok_node _ _ _ _ _ Hok)) as Hn. cbn [VecConcProofs.nvis] in Hn.
    apply cwp_bind. eapply cwp_lift; [rewrite index_blank; exact Hoff|].
    apply cwp_bind. eapply cwp_lift; [rewrite count_blank; exact Hk|].
    apply cwp_bind. eapply cwp_uq_leaf; [exact Hn| |].
    + intros h2 R2. apply cwp_bind. eapply cwp_copy_leaf; [eapply vis_rely; [exact R2|exact Hn]|exact Hys|].
      intros q h3 R3 Hc3. apply cwp_bind. eapply t_dec_ok; [exact Ea| |exact Hok|].
      * apply prel_incl with (L := L) (R := a :: R); [inc|inc|]. eapply prel_rely with (h := h1); [|exact Hp]. rl.
      * intros h4 R4. apply cwp_done.
        apply (K q q off [q] []); [rl|]. constructor; [|exact Hx]. eapply rely_local; [exact R4|now left|exact Hc3].
    + intros h2 R2 Hc2. apply cwp_done. apply (K a a off [a] []); [rl|]. now constructor.
  - apply rbind_ok in Hu. destruct Hu as (off & Hoff & Hu). apply rbind_ok in Hu. destruct Hu as (k & Hk & Hu).
    apply rbind_ok in Hu. destruct Hu as (ns0 & Hns0 & Hu). apply rbind_ok in Hu. destruct Hu as ([q idx'] & Htw & Hu).
    apply rbind_ok in Hu. destruct Hu as (cn & Hcn & Hu). apply rbind_ok in Hu. destruct Hu as (ns' & Hns' & Hu).
    injection Hu as <-.
    pose proof (count_ok _ _ _ _ _ Hok) as Hk'. rewrite Hk in Hk'. injection Hk' as ->.
    apply cwp_bind. eapply cwp_lift; [exact Ea|]. apply cwp_bind. eapply cwp_view; [exact Hp|]. intros h1 R1.
    eapply prel_rely in Hp; [|exact R1].
    apply cwp_bind. eapply cwp_lift; [rewrite index_blank; exact Hoff|].
    apply cwp_bind. eapply cwp_lift; [rewrite count_blank; exact Hk|].
    destruct (prel_cases _ _ _ _ _ _ _ _ _ _ _ Hp Ea Hok) as (r & cs & o & ns & -> & Hi & El & Hcase).
    unfold pinner in Hns0. rewrite (pos_ok_node _ _ _ _ _ Hok) in Hns0. cbn in Hns0. injection Hns0 as <-.
    cbn [ncount] in *.
    assert (ns' = ns) as ->.
    { apply rtakeN_inv in Hns'. destruct Hns' as [_ ->]. apply takeN_all. lia. } clear Hns'.
    destruct (htowards_ok _ _ _ _ _ cs _ _ _ _ Hok El Htw) as (kd & Hkd & ca & c & cb & na & x & nb & -> & En & Eca & Ena & Eaddr & Ekp & Hqok).
    cbn [kids] in En. subst ns c off. rewrite <- El in *.
    assert (Eo : match p with PRel _ sz => Some sz | _ => None end = o).
    { destruct Hcase as [(rr & sz & -> & -> & -> & ->)|(-> & -> & _ & Hpp & _)]; [reflexivity|apply Hpp]. }
    rewrite Eo in K. rewrite updN_app in K by congruence.
    assert (Elen : lenN ca = lenN (map enc na)) by (rewrite lenN_map; lia).
    assert (Elv : lv1 (na ++ cn :: nb) = lv1 (na ++ x :: nb)).
    { apply lv1_mid. eapply update_lvl; [exact Hqok|exact Hcn]. }
    (* the child found, of a node that is the thread's own *)
    assert (W : forall b (S : list nat) h2 kk, rely L (G ++ S) h1 h2 -> cell_at h2 b (icell 1 r (ca ++ kaddr kd :: cb)) ->
       iv (b :: L) (ptrs r (ca ++ kaddr kd :: cb) ++ S) h2 b r (ca ++ kaddr kd :: cb) o (na ++ x :: nb) ->
       (forall lf off P Q h3, rely L (G ++ S) h2 h3 ->
          opath fn h3 b (b :: P) (ptrs r (ca ++ cb) ++ Q) lf off (Inner o (na ++ cn :: nb)) ->
          cwp (kk (lf, off)) F (b :: P ++ L) (ptrs r (ca ++ cb) ++ Q ++ S) h3) ->
       cwp (q <-- t_open B BL l kd ;; ' (c, e) <-- t_get_mut B BL l q idx' ;; _ <-- t_put_kid b (lenN ca) c ;; kk e)
         F (b :: L) (ptrs r (ca ++ kaddr kd :: cb) ++ S) h2).
    { intros b S h2 kk R2 Hb Hib KW.
      pose proof (iv_ks _ _ _ _ _ _ _ _ _ Hib) as Hks. rewrite map_app in Hks. cbn [map] in Hks.
      destruct (F2_mid _ _ _ _ _ _ _ Elen Hks) as (Hk1 & Hkx & Hk2).
      pose proof (iv_ot _ _ _ _ _ _ _ _ _ Hib) as Hot.
      apply cwp_bind. eapply cwp_open; [apply own_nvis; exact Hkx|exact Ekp|]. intros hq h3 R3 Eq Hq.
      apply cwp_bind. apply cwp_roots with (R' := kaddr kd :: ptrs r (ca ++ cb) ++ S); [destruct r; oc|].
      eapply IH; [exact Eq| |exact Hqok|exact Hcn|].
      { apply prel_incl with (L := b :: L) (R := ptrs r (ca ++ kaddr kd :: cb) ++ S); [inc|destruct r; cbn [ptrs]; inc|exact Hq]. }
      intros c lf off P Q h4 R4 Hop. apply cwp_bind.
      eapply cwp_put_kid with (L' := P ++ L) (i := lenN ca) (x := kaddr kd); [symmetry; apply Permutation_middle| |apply rnthN_app; reflexivity|].
      { eapply rely_local; [exact R4|now left|]. eapply rely_local; [exact R3|now left|exact Hb]. }
      intros h5 R5 Hb5. rewrite updN_app in Hb5 by reflexivity.
      assert (Rl5 : rely L (G ++ ptrs r (ca ++ cb)) h2 h5) by (destruct r; cbn [ptrs] in *; rl).
      apply cwp_eqv with (L' := b :: P ++ L) (R' := ptrs r (ca ++ cb) ++ Q ++ S); [symmetry; apply Permutation_middle|oc|].
      apply KW; [destruct r; cbn [ptrs] in *; rl|]. econstructor.
      - exact Hb5.
      - rewrite Elv. eapply ot_rely; [exact Rl5|]. eapply ot_root; [exact Hot|]. intros z ->. now left.
      - eapply owns_rely; [exact Rl5|]. eapply owns_root; [destruct r; cbn [ptrs]; inc|eapply owns_rep; exact Hk1].
      - eapply owns_rely; [exact Rl5|]. eapply owns_root; [destruct r; cbn [ptrs]; inc|eapply owns_rep; exact Hk2].
      - eapply opath_rely; [exact R5|inc|inc|exact Hop]. }
    apply cwp_bind. eapply cwp_uq_iv; [exact Hi| |].
    + intros h2 R2. eapply iv_rely in Hi; [|exact R2]. eapply prel_rely in Hp; [|exact R2].
      apply cwp_bind. eapply cwp_inner; [exact (iv_vis _ _ _ _ _ _ _ _ _ Hi)|]. intros h3 R3.
      eapply iv_rely in Hi; [|exact R3]. eapply prel_rely in Hp; [|exact R3].
      apply cwp_bind. eapply cwp_lift; [exact Hkd|].
      assert (W2 : forall b h4, rely L (G ++ a :: R) h3 h4 -> cell_at h4 b (icell 1 r []) ->
         cwp (_ <-- t_copy_inner b a (lenN (ca ++ kaddr kd :: cb)) [] ;;
              q <-- t_open B BL l kd ;; ' (c, e) <-- t_get_mut B BL l q idx' ;; _ <-- t_put_kid b (lenN ca) c ;;
              _ <-- t_dec B BL (S l) hp ;; Done (b, e)) F (b :: L) (ptrs r (a :: R)) h4).
      { intros b h4 R4 Hb.
        assert (Hi4 : iv L (a :: R) h4 a r (ca ++ kaddr kd :: cb) o (na ++ x :: nb)) by (eapply iv_rely; [exact R4|exact Hi]).
        apply cwp_bind. eapply cwp_copy_inner with (sr := r) (cs := ca ++ kaddr kd :: cb); [exact Hb| | |apply rtakeN_len; lia|].
        - apply vis_incl with (L := L) (R := a :: R); [inc|destruct r; cbn [ptrs]; inc|exact (iv_vis _ _ _ _ _ _ _ _ _ Hi4)].
        - apply froms_incl with (R := a :: R); [destruct r; cbn [ptrs]; inc|]. eapply owns_from. exact (iv_ks _ _ _ _ _ _ _ _ _ Hi4).
        - rewrite takeN_all by lia. rewrite app_nil_r. intros h5 R5 Hb5.
          apply cwp_roots with (R' := ptrs r (ca ++ kaddr kd :: cb) ++ a :: R); [destruct r; oc|].
          eapply W; [destruct r; cbn [ptrs] in *; rl|exact Hb5| |].
          + assert (Hi5 : iv L (a :: R) h5 a r (ca ++ kaddr kd :: cb) o (na ++ x :: nb)).
            { eapply iv_rely; [|exact Hi4]. destruct r; cbn [ptrs] in *; rl. }
            constructor; [eapply loc_vis; [reflexivity|exact Hb5]| |].
            * eapply ot_incl; [|exact (iv_ot _ _ _ _ _ _ _ _ _ Hi5)]. inc.
            * eapply owns_incl; [|exact (iv_ks _ _ _ _ _ _ _ _ _ Hi5)]. inc.
          + intros lf off P Q h6 R6 Hop. apply cwp_bind.
            apply cwp_roots with (R' := a :: ptrs r (ca ++ cb) ++ Q ++ R); [oc|].
            eapply t_dec_ok; [exact Ea| |exact Hok|].
            * apply prel_incl with (L := L) (R := a :: R); [inc|inc|]. eapply prel_rely; [|exact Hp]. destruct r; cbn [ptrs] in *; rl.
            * intros h7 R7. apply cwp_post, cwp_done. exists ((b :: P) ++ L), ((ptrs r (ca ++ cb) ++ Q) ++ R).
              split; [reflexivity|]. split; [oc|]. apply K; [destruct r; cbn [ptrs] in *; rl|].
              eapply opath_rely; [exact R7|inc|inc|exact Hop]. }
      destruct Hcase as [(rr & sz & -> & -> & -> & ->)|(-> & -> & Hh & Hpp & _)].
      * apply cwp_bind. eapply cwp_make_inner_sr; [exact (iv_ot _ _ _ _ _ _ _ _ _ Hi)|].
        intros b h4 R4 Hc4. apply W2; [exact R4|exact Hc4].
      * rewrite Hh. apply cwp_bind. eapply cwp_make_inner. intros b h4 R4 Hc4. apply W2; [exact R4|exact Hc4].
    + intros h2 R2 Hc2 Hi2. apply cwp_bind. eapply cwp_inner; [exact (iv_vis _ _ _ _ _ _ _ _ _ Hi2)|]. intros h3 R3.
      apply cwp_bind. eapply cwp_lift; [exact Hkd|].
      eapply W with (S := R); [rl|eapply rely_local; [exact R3|now left|exact Hc2]|eapply iv_rely; [exact R3|exact Hi2]|].
      intros lf off P Q h4 R4 Hop. apply cwp_post, cwp_done. exists ((a :: P) ++ L), ((ptrs r (ca ++ cb) ++ Q) ++ R).
      split; [reflexivity|]. split; [oc|]. apply K; [rl|exact Hop].
Qed.
End VCG.
