(** The tokens that the operations of GcVec, GcSlice and GcConcat give to blocks. *)
From Coq Require Import List NArith Arith Bool Lia.
From Verif Require Import Common NList Rrb GcConcat GcVec GcSlice GcRep.
Import ListNotations.
Local Open Scope N_scope.

Set Default Goal Selector "!".

Section Tok.
Variables B BL : N.
Context {T : Type}.
Variable E : list token.
Notation heap := (gheap T).

Definition okown (o : option token) : Prop := match o with None => True | Some e => In e E end.
(** No block has gone, and a block has the owner it had, or none, or one of [E]. *)
Definition toks (h h' : heap) : Prop :=
  (length h <= length h')%nat /\
  forall a c', nth_error h' a = Some c' -> okown (g_own c') \/ exists c, nth_error h a = Some c /\ g_own c = g_own c'.
Definition tk {A} (m : G T A) : Prop := forall h x h', m h = Ok (x, h') -> toks h h'.

Lemma toks_refl h : toks h h.
Proof. split; [auto|]. eauto. Qed.
Lemma toks_trans h h1 h2 : toks h h1 -> toks h1 h2 -> toks h h2.
Proof.
  intros (L1 & K1) (L2 & K2). split; [lia|]. intros a c Ha. destruct (K2 a c Ha) as [|(c1 & H1 & O1)]; [auto|].
  destruct (K1 a c1 H1) as [|(c0 & H0 & O0)]; [left; congruence|]. right. exists c0. split; [auto|congruence].
Qed.
Lemma tk_bind {A D} (m : G T A) (k : A -> G T D) : tk m -> (forall a, tk (k a)) -> tk (gbind m k).
Proof.
  intros Hm Hk h x h' H. unfold gbind in H. destruct (m h) as [[a h1]|] eqn:Em; [|easy].
  eapply toks_trans; [exact (Hm _ _ _ Em)|exact (Hk _ _ _ _ H)].
Qed.
Lemma tk_ret {A} (a : A) : tk (gret a).
Proof. intros h x h' H. injection H as _ <-. apply toks_refl. Qed.
Lemma tk_lift {A} (r : res A) : tk (glift r).
Proof. intros h x h' H. unfold glift in H. destruct r; [|easy]. injection H as _ <-. apply toks_refl. Qed.
Lemma tk_ub {A} : tk (@gub T A).
Proof. intros h x h' H. easy. Qed.
Lemma tk_load a : tk (gload a).
Proof. intros h x h' H. unfold gload in H. destruct (nth_error h a); [|easy]. injection H as _ <-. apply toks_refl. Qed.
Lemma tk_new c : okown (g_own c) -> tk (gnew c).
Proof.
  intros Ho h x h' H. injection H as _ <-. split; [rewrite app_length; lia|]. intros a c' Ha.
  destruct (Nat.ltb_spec a (length h)) as [L|L].
  - rewrite nth_error_app1 in Ha by auto. eauto.
  - rewrite nth_error_app2 in Ha by auto. destruct (a - length h)%nat as [|k]; [|now destruct k].
    injection Ha as <-. auto.
Qed.
Lemma toks_upd (h : heap) a c0 c : nth_error h a = Some c0 -> (okown (g_own c) \/ g_own c = g_own c0) -> toks h (update_at a c h).
Proof.
  intros Ha Ho. split; [rewrite upd_len; auto|]. intros b c' Hb. destruct (Nat.eq_dec a b) as [<-|N].
  - rewrite (upd_eq _ _ _ _ Ha) in Hb. injection Hb as <-. destruct Ho as [|Ho]; [auto|]. right. exists c0. auto.
  - rewrite upd_ne in Hb by auto. right. eauto.
Qed.
Lemma tk_put_leaf a xs : tk (gput_leaf a xs).
Proof.
  intros h x h' H. unfold gput_leaf, gbind, gload in H. destruct (nth_error h a) as [c|] eqn:Ea; [|easy].
  destruct (g_body c); try easy. unfold gstore in H. rewrite Ea in H. injection H as _ <-. eapply toks_upd; eauto.
Qed.
Lemma tk_put_inner a r xs : tk (gput_inner a r xs).
Proof.
  intros h x h' H. unfold gput_inner, gbind, gload in H. destruct (nth_error h a) as [c|] eqn:Ea; [|easy].
  destruct (g_body c); try easy. unfold gstore in H. rewrite Ea in H. injection H as _ <-. eapply toks_upd; eauto.
Qed.
Lemma tk_put_table a r xs : tk (gput_table a r xs).
Proof.
  intros h x h' H. unfold gput_table, gbind, gload in H. destruct (nth_error h a) as [c|] eqn:Ea; [|easy].
  destruct (g_body c); try easy. unfold gstore in H. rewrite Ea in H. injection H as _ <-. eapply toks_upd; eauto.
Qed.
Lemma tk_set_owner a e : In e E -> tk (gset_owner a e).
Proof.
  intros He h x h' H. unfold gset_owner, gbind, gload in H. destruct (nth_error h a) as [c|] eqn:Ea; [|easy].
  unfold gstore in H. rewrite Ea in H. injection H as _ <-. eapply toks_upd; [exact Ea|]. left. exact He.
Qed.

Create HintDb tk.
Hint Resolve tk_ret tk_lift tk_ub tk_load tk_put_leaf tk_put_inner tk_put_table tk_set_owner tk_new : tk.
Hint Extern 3 (okown _) => (exact I || assumption) : tk.
(** Programs by their structure. *)
Ltac tk :=
  repeat first
    [ progress intros
    | match goal with |- tk (gbind _ _) => apply tk_bind end
    | solve [auto with tk]
    | match goal with
      | |- tk (match ?x with _ => _ end) => destruct x
      | |- tk (let _ := _ in _) => cbv zeta
      | |- tk (if ?x then _ else _) => destruct x
      end ].

Section E1.
Lemma tk_leaf a : tk (gleaf a). Proof. unfold gleaf. tk. Qed.
Lemma tk_inner a : tk (ginner a). Proof. unfold ginner. tk. Qed.
Lemma tk_table a : tk (gtable a). Proof. unfold gtable. tk. Qed.
Hint Resolve tk_leaf tk_inner tk_table : tk.
Lemma tk_kid a i : tk (gkid a i). Proof. unfold gkid. tk. Qed.
Lemma tk_size a i : tk (gsize a i). Proof. unfold gsize. tk. Qed.
Lemma tk_count a : tk (gcount a). Proof. unfold gcount. tk. Qed.
Lemma tk_set_kid a i p : tk (gset_kid a i p). Proof. unfold gset_kid. tk. Qed.
Lemma tk_set_size a i p : tk (gset_size a i p). Proof. unfold gset_size. tk. Qed.
Lemma tk_set_count a i : tk (gset_count a i). Proof. unfold gset_count. tk. Qed.
Lemma tk_relaxed a : tk (grelaxed a). Proof. unfold grelaxed. tk. Qed.
Lemma tk_can_mutate a e : tk (gcan_mutate a e). Proof. unfold gcan_mutate. tk. Qed.
Hint Resolve tk_kid tk_size tk_count tk_set_kid tk_set_size tk_set_count tk_relaxed tk_can_mutate : tk.
Lemma tk_make_inner_r e : In e E -> tk (gmake_inner_r B e). Proof. unfold gmake_inner_r. tk. Qed.
Lemma tk_make_leaf e : In e E -> tk (gmake_leaf BL e). Proof. unfold gmake_leaf. tk. Qed.
Lemma tk_ensure_relaxed a e ec : In ec E -> tk (gensure_relaxed B a e ec). Proof. unfold gensure_relaxed. tk. Qed.
Hint Resolve tk_make_inner_r tk_make_leaf tk_ensure_relaxed : tk.
Lemma tk_view g : tk (gview g). Proof. destruct g; cbn; tk. Qed.
Lemma tk_sub v a s : tk (gsub B BL v a s). Proof. unfold gsub. tk. Qed.
Hint Resolve tk_view tk_sub : tk.
Lemma tk_maybe v a s : tk (gmaybe B BL v a s). Proof. unfold gmaybe. tk. Qed.
Hint Resolve tk_maybe : tk.
Lemma tk_child v a s : tk (gchild B BL v a s). Proof. unfold gchild. tk. Qed.
Hint Resolve tk_child : tk.

Section V.
Context {S : Type}.
Variable V : S -> gpos -> G T S.
Hypothesis HV : forall s p, tk (V s p).
Hint Resolve HV : tk.
Lemma tk_each_full a is : forall s, tk (geach_full V a is s).
Proof. induction is; cbn; tk. Qed.
Lemma tk_rel_turn l a r i prev s : tk (grel_turn B BL V l a r i prev s).
Proof. unfold grel_turn. tk. Qed.
Hint Resolve tk_each_full tk_rel_turn : tk.
Lemma tk_rel_left l a r is : forall prev s, tk (grel_left B BL V l a r is prev s).
Proof. induction is; cbn; tk. Qed.
Lemma tk_rel_right f l a r : forall i prev s, tk (grel_right B BL V f l a r i prev s).
Proof. induction f; cbn; tk. Qed.
Hint Resolve tk_rel_left tk_rel_right : tk.
Lemma tk_left_subs l p s : tk (gleft_subs B BL V l p s).
Proof. unfold gleft_subs. tk. Qed.
Lemma tk_right_subs l p s : tk (gright_subs B BL V l p s).
Proof. unfold gright_subs. tk. Qed.
Lemma tk_leaf_subs ns : forall sz prev s, tk (gleaf_subs B BL V ns sz prev s).
Proof. induction ns; cbn; tk. Qed.
Lemma tk_inner_subs ns : forall s, tk (ginner_subs V ns s).
Proof. induction ns; cbn; tk. Qed.
Hint Resolve tk_leaf_subs tk_inner_subs : tk.
Lemma tk_center_subs c s : tk (gcenter_subs B BL V c s).
Proof. unfold gcenter_subs. tk. Qed.
End V.

Lemma tk_last_sub l p : tk (glast_sub B BL l p). Proof. unfold glast_sub. tk. Qed.
Lemma tk_first_sub l p : tk (gfirst_sub B BL l p). Proof. unfold gfirst_sub. tk. Qed.
Lemma tk_copy_rel k : forall r d o w prev init, tk (gcopy_rel k r d o w prev init).
Proof. induction k; cbn; tk. Qed.
Hint Resolve tk_last_sub tk_first_sub tk_copy_rel : tk.
Lemma tk_copy_sizes v p o n init d w : tk (gcopy_sizes B BL v p o n init d w). Proof. unfold gcopy_sizes. tk. Qed.
Hint Resolve tk_copy_sizes : tk.

Section Ec.
Variable ec : token.
Hypothesis Hec : In ec E.
Hint Resolve Hec : tk.
Lemma tk_merger_init cs cand : tk (gmerger_init B ec cs cand). Proof. unfold gmerger_init. tk. Qed.
Lemma tk_add_child p sz m : tk (gadd_child B ec p sz m). Proof. unfold gadd_child. tk. Qed.
Lemma tk_leaf_to from fm m : tk (gleaf_to BL ec from fm m). Proof. unfold gleaf_to. tk. Qed.
Lemma tk_move_leaf from fm to fo off n : tk (gmove_leaf from fm to fo off n). Proof. unfold gmove_leaf. tk. Qed.
Hint Resolve tk_merger_init tk_add_child tk_leaf_to tk_move_leaf : tk.
Lemma tk_merge_leaf_go f from fm k : forall fo m, tk (gmerge_leaf_go B BL f ec from fm k fo m).
Proof. induction f; cbn [gmerge_leaf_go]; tk. Qed.
Hint Resolve tk_merge_leaf_go : tk.
Lemma tk_merge_leaf e m p : tk (gmerge_leaf B BL ec e m p). Proof. unfold gmerge_leaf. tk. Qed.
Lemma tk_inner_to e from fm m : tk (ginner_to B ec e from fm m). Proof. unfold ginner_to. tk. Qed.
Lemma tk_move_inner v p from to rt fo off n ts : tk (gmove_inner B BL v p from to rt fo off n ts).
Proof. unfold gmove_inner. tk. Qed.
Hint Resolve tk_merge_leaf tk_inner_to tk_move_inner : tk.
Lemma tk_merge_inner_go f e v p from fm k : forall fo m, tk (gmerge_inner_go B BL f ec e v p from fm k fo m).
Proof. induction f; cbn [gmerge_inner_go]; tk. Qed.
Hint Resolve tk_merge_inner_go : tk.
Lemma tk_merge_inner e v m p : tk (gmerge_inner B BL ec e v m p). Proof. unfold gmerge_inner. tk. Qed.
Hint Resolve tk_merge_inner : tk.
Lemma tk_visit cl e m p : tk (gvisit B BL cl ec e m p). Proof. unfold gvisit. tk. Qed.
Lemma tk_finish cl m : tk (gfinish cl m). Proof. unfold gfinish. tk. Qed.
Lemma tk_candidate p e : tk (gcandidate p e). Proof. unfold gcandidate. tk. Qed.
Hint Resolve tk_visit tk_finish tk_candidate tk_left_subs tk_right_subs tk_center_subs : tk.
Lemma tk_merge el lp c er rp plan : tk (gmerge B BL ec el lp c er rp plan). Proof. unfold gmerge. tk. Qed.
Lemma tk_fill cl s p : tk (gfill B BL cl s p). Proof. unfold gfill. tk. Qed.
Hint Resolve tk_merge tk_fill : tk.
Lemma tk_rebalance el lp c er rp : tk (grebalance B BL ec el lp c er rp). Proof. unfold grebalance. tk. Qed.
Lemma tk_concat_leafs lp tp rp : tk (gconcat_leafs B BL lp tp rp). Proof. unfold gconcat_leafs. tk. Qed.
Hint Resolve tk_rebalance tk_concat_leafs : tk.
Lemma tk_concat_inners f : forall ll rl el lp tp er rp, tk (gconcat_inners B BL f ll rl ec el lp tp er rp).
Proof. induction f; cbn [gconcat_inners]; tk. Qed.
Lemma tk_realize c : tk (grealize B ec c). Proof. unfold grealize. tk. Qed.
Hint Resolve tk_concat_inners tk_realize : tk.
Lemma tk_concat_trees el lp ll tp er rroot rl rsize : tk (gconcat_trees B BL ec el lp ll tp er rroot rl rsize).
Proof. unfold gconcat_trees. tk. Qed.
End Ec.
Lemma tk_tail_offset t : tk (gtail_offset BL t). Proof. unfold gtail_offset. tk. Qed.
Hint Resolve tk_concat_trees tk_tail_offset : tk.
Lemma tk_concat_mut ec el er x y : In ec E -> tk (gconcat_mut B BL ec el er x y). Proof. unfold gconcat_mut. tk. Qed.

(** *** GcVec *)
Hint Resolve tk_concat_mut : tk.
Section Al.
Variable al : option token.
Hypothesis Hal : okown al.
Hint Resolve Hal : tk.
Lemma tk_mk_inner n : tk (gmk_inner B al n). Proof. unfold gmk_inner. tk. Qed.
Lemma tk_mk_inner_r n : tk (gmk_inner_r B al n). Proof. unfold gmk_inner_r. tk. Qed.
Lemma tk_mk_leaf n : tk (gmk_leaf BL al n). Proof. unfold gmk_leaf. tk. Qed.
Lemma tk_put_elem a i x : tk (gput_elem a i x). Proof. unfold gput_elem. tk. Qed.
Lemma tk_copy_elems s i j d w : tk (gcopy_elems s i j d w). Proof. unfold gcopy_elems. tk. Qed.
Hint Resolve tk_mk_inner tk_mk_inner_r tk_mk_leaf tk_put_elem tk_copy_elems : tk.
Lemma tk_leaf_with x : tk (gleaf_with BL al x). Proof. unfold gleaf_with. tk. Qed.
Lemma tk_copy_leaf s i j : tk (gcopy_leaf BL al s i j). Proof. unfold gcopy_leaf. tk. Qed.
Lemma tk_copy_leaf2 s n s2 n2 : tk (gcopy_leaf2 BL al s n s2 n2). Proof. unfold gcopy_leaf2. tk. Qed.
Lemma tk_copy_kids d s n : tk (gcopy_kids d s n). Proof. unfold gcopy_kids. tk. Qed.
Hint Resolve tk_copy_kids : tk.
Lemma tk_copy_kids_r d s n : tk (gcopy_kids_r d s n). Proof. unfold gcopy_kids_r. tk. Qed.
Lemma tk_make_path v : forall tl, tk (gmake_path B al v tl). Proof. induction v; cbn; tk. Qed.
Lemma tk_ensure_relaxed_n a e n : In e E -> tk (gensure_relaxed_n B a e n). Proof. unfold gensure_relaxed_n. tk. Qed.
Lemma tk_total r : tk (gtotal r). Proof. unfold gtotal. tk. Qed.
Lemma tk_size_at r i : tk (gsize_at r i). Proof. unfold gsize_at. tk. Qed.
Lemma tk_mutate mu a : tk (gmutate al mu a). Proof. unfold gmutate. tk. Qed.
Hint Resolve tk_copy_kids_r tk_make_path tk_ensure_relaxed_n tk_total tk_size_at tk_mutate : tk.
Lemma tk_finish_mut e a r i c ts : In e E -> tk (gfinish_mut B e a r i c ts). Proof. unfold gfinish_mut. tk. Qed.
Lemma tk_finish_copy a r i c ts : tk (gfinish_copy B al a r i c ts). Proof. unfold gfinish_copy. tk. Qed.
Hint Resolve tk_finish_mut tk_finish_copy : tk.
Lemma tk_finish_push mt a r i c ts : tk (gfinish_push B al mt a r i c ts).
Proof.
  pose proof (tk_finish_copy a r i c ts) as H. pose proof (fun e => tk_finish_mut e a r i c ts) as H'. pose proof Hal as Ho.
  unfold gfinish_push. destruct al as [e|]; [destruct mt|]; auto.
Qed.
Hint Resolve tk_finish_push : tk.
Lemma tk_push v : forall mu g tl ts, tk (gpush B BL al mu v g tl ts). Proof. induction v; cbn [gpush]; tk. Qed.
Hint Resolve tk_push : tk.
Lemma tk_push_tail mu x off tl ts : tk (gpush_tail B BL al mu x off tl ts). Proof. unfold gpush_tail. tk. Qed.
End Al.
Hint Resolve tk_put_elem tk_copy_elems tk_leaf_with tk_copy_leaf tk_copy_leaf2 tk_push_tail tk_copy_kids tk_mk_inner tk_mk_leaf : tk.
Lemma tk_copy_emplace s n x : tk (gcopy_emplace BL s n x).
Proof. unfold gcopy_emplace. tk. Qed.
Lemma tk_ensure_tail e x n : In e E -> tk (gensure_tail BL e x n). Proof. unfold gensure_tail. tk. Qed.
Hint Resolve tk_copy_emplace tk_ensure_tail : tk.
Lemma tk_push_back_mut e x v : In e E -> tk (gpush_back_mut B BL e x v). Proof. unfold gpush_back_mut. tk. Qed.
Lemma tk_push_back x v : tk (gpush_back B BL x v). Proof. unfold gpush_back. tk. Qed.
Lemma tk_towards l g idx off : tk (gtowards B BL l g idx off). Proof. unfold gtowards. tk. Qed.
Lemma tk_mk_inner_sr e r : In e E -> tk (gmk_inner_sr B e r). Proof. unfold gmk_inner_sr. tk. Qed.
Hint Resolve tk_towards tk_mk_inner_sr : tk.
Lemma tk_get_mut e v : In e E -> forall g idx, tk (gget_mut B BL e v g idx).
Proof. intros He. induction v; cbn [gget_mut]; tk. Qed.
Hint Resolve tk_get_mut : tk.
Lemma tk_update_mut e x idx fn : In e E -> tk (gupdate_mut B BL e x idx fn). Proof. unfold gupdate_mut. tk. Qed.
Lemma tk_fill_tail mv x y ts n : tk (gfill_tail mv x y ts n). Proof. unfold gfill_tail. tk. Qed.
Hint Resolve tk_fill_tail : tk.
Lemma tk_append noone el mv x y : In el E -> tk (gappend B BL noone el mv x y). Proof. unfold gappend. tk. Qed.
Lemma tk_prepend noone er mv x y : In er E -> tk (gprepend B BL noone er mv x y). Proof. unfold gprepend. tk. Qed.

(** *** GcSlice *)
Section Sl.
Variable al : option token.
Hypothesis Hal : okown al.
Hint Resolve Hal tk_mk_inner_r tk_copy_kids_r tk_mutate tk_ensure_relaxed_n : tk.
Lemma tk_towards_sub l g idx off : tk (gtowards_sub B BL l g idx off). Proof. unfold gtowards_sub. tk. Qed.
Lemma tk_destroy a i j : tk (gdestroy a i j). Proof. unfold gdestroy. tk. Qed.
Lemma tk_put_last b r i c s : tk (gput_last b r i c s). Proof. unfold gput_last. tk. Qed.
Hint Resolve tk_towards_sub tk_destroy tk_put_last : tk.
Lemma tk_keep mt g a i oc : tk (gkeep B al mt g a i oc).
Proof. unfold gkeep. destruct g; destruct mt; tk. Qed.
Hint Resolve tk_keep : tk.
Lemma tk_slice_right v : forall mu col g last, tk (gslice_right B BL al mu col v g last).
Proof. induction v; cbn [gslice_right]; tk. Qed.
Lemma tk_move_front (selfmv : T -> T) a i k : tk (gmove_front selfmv a i k). Proof. unfold gmove_front. tk. Qed.
Lemma tk_left_node mt g a n : tk (gleft_node B al mt g a n).
Proof. unfold gleft_node. pose proof Hal as Ho. destruct al as [e|] eqn:Ea; [destruct mt|]; cbn in Ho; tk. Qed.
Lemma tk_copy_rest a i k b : tk (gcopy_rest a i k b). Proof. unfold gcopy_rest. tk. Qed.
Hint Resolve tk_move_front tk_left_node tk_copy_rest : tk.
Lemma tk_left_fill v g a idx k b r c s0 : tk (gleft_fill B BL al v g a idx k b r c s0).
Proof. unfold gleft_fill. destruct al, g; tk. Qed.
Hint Resolve tk_left_fill : tk.
Lemma tk_slice_left nm (selfmv : T -> T) v : forall mu col g first, tk (gslice_left B BL nm selfmv al mu col v g first).
Proof. induction v; cbn [gslice_left]; tk. Qed.
End Sl.
Hint Resolve tk_destroy tk_slice_right tk_slice_left : tk.
Lemma tk_take_mut em e x n : In e E -> tk (gtake_mut B BL em e x n). Proof. unfold gtake_mut. tk. Qed.
Lemma tk_take em x n : tk (gtake B BL em x n). Proof. unfold gtake. tk. Qed.
Lemma tk_drop_mut nm (selfmv : T -> T) em e x n : In e E -> tk (gdrop_mut B BL nm selfmv em e x n). Proof. unfold gdrop_mut. tk. Qed.
Lemma tk_drop nm (selfmv : T -> T) em x n : tk (gdrop B BL nm selfmv em x n). Proof. unfold gdrop. tk. Qed.
End E1.
End Tok.
