(** push_tail_visitor and, on trees without relaxed nodes, push_tail_mut_visitor in the memory of
    several threads. *)
From Coq Require Import List NArith Arith Bool Lia Permutation ZifyN ZifyNat ZifyBool.
From Verif Require Import Common NList Rrb RrbInv RrbPos RrbOps RrbSlice RrbViewOk RrbConcat AtomProofs
  RcHeap RcProofs Conc ConcProofs VecPush ChampConcProofs VecHeap VecPlan VecNodes VecMake VecGetMut VecTree VecProgSpec VecProg
  VecConc VecConcProofs VecConcGetMut.
Import ListNotations.
Local Open Scope N_scope.
Set Default Goal Selector "!".

Section VCP.
Context {T : Type}.
Variables B BL : N.
Variable G : list nat.
Notation body := (vbody T).
Notation heap := (heap body). Notation cell := (cell body).
Notation nd := (node T).
Notation pos_ok := (@pos_ok T B BL).
Notation wf := (@wf T B BL).
Notation full := (@full T B BL).
Notation span := (span B BL).
Notation lwidth := (lwidth BL).
Notation cwp := (cwp G).
Notation own := (own G).
Notation vis := (vis G).
Notation iv := (iv G).
Notation ot := (ot G).
Notation nvis := (nvis G).
Notation prel := (prel G).
Notation post A := (A -> list nat -> list nat -> heap -> Prop).
Notation enc := (@enc T).
Notation ow := VecPush.own.
Implicit Types (h : heap).

(** A position refers to what its node can be seen by. *)
Lemma prel_see L R L' R' h hp p a n : prel L R h hp p -> haddr hp = Ok a -> pnode p = Ok n -> nvis L' R' h a n -> prel L' R' h hp p.
Proof.
  intros H Ea En Hn. destruct H as [b m H|b m s H|b m s H|b r cs sz ns H]; injection Ea as ->; injection En as <-.
  1-3: now constructor.
  destruct Hn as (r' & cs' & Hi).
  destruct (vis_fun _ _ _ _ _ _ _ _ _ _ _ (iv_vis _ _ _ _ _ _ _ _ _ H) (iv_vis _ _ _ _ _ _ _ _ _ Hi)) as [E1 E2].
  destruct (ptrs_inj _ _ _ _ E1 E2) as [<- <-]. econstructor. exact Hi.
Qed.

(** A copy of the relaxed node [a] gets a new child and a new size after its first [i]. *)
Lemma cwp_finish_copy l a r sz ns i c cn s ts tl tn (F : post (option nat)) L R h :
  prel L (c :: R) h (HRel a r) (PRel (Inner (Some sz) ns) sz) ->
  pos_ok (S l) (PRel (Inner (Some sz) ns) sz) (Inner (Some sz) ns) ->
  own (c :: R) h c (enc cn) -> wf l cn -> carries h c tl tn -> i <= lenN ns -> last_of sz = Ok s ->
  (forall b h', rely L (G ++ R) h h' ->
     own (b :: R) h' b (enc (Inner (Some (takeN i sz ++ [s + ts])) (takeN i ns ++ [cn]))) -> carries h' b tl tn -> F (Some b) L (b :: R) h') ->
  cwp (n <-- t_make_inner_r (S l) ;; p' <-- t_view (HRel a r) ;; s <-- plift (psize B BL (S l) p') ;;
       _ <-- t_copy_inner_r n a i [c] [s + ts] ;; _ <-- when false (t_dec B BL (S l) (HRel a r)) ;; Done (Some n)) F L (c :: R) h.
Proof.
  intros Hp Hok Hcn Hwc Htl Hi Hs K. pose proof (pos_ok_wf _ _ _ _ _ Hok) as Hw.
  assert (Hlz : lenN sz = lenN ns). { destruct Hw as (_ & _ & Hz). rewrite Hz, lenN_sums, lenN_map. reflexivity. }
  apply cwp_bind. apply cwp_make_inner_r. intros b d h1 R1 Hb1 Hd1.
  eapply prel_rely in Hp; [|exact R1]. eapply own_rely in Hcn; [|exact R1].
  assert (Htl1 : carries h1 c tl tn) by (eapply carries_rely; [exact R1|apply in_or_app; right; now left|exact Htl]).
  apply cwp_bind. eapply cwp_view; [apply prel_incl with (L := L) (R := c :: R); [inc|inc|exact Hp]|]. intros h2 R2.
  apply cwp_bind. eapply cwp_lift; [rewrite psize_blank; exact Hs|].
  assert (R12 : rely L (G ++ c :: R) h1 h2) by rl.
  eapply prel_rely in Hp; [|exact R12]. eapply own_rely in Hcn; [|exact R12].
  assert (Htl2 : carries h2 c tl tn) by (eapply carries_rely; [exact R12|apply in_or_app; right; now left|exact Htl1]).
  inversion Hp as [| | |? ? cs ? ? Hi1]; subst. pose proof (iv_len _ _ _ _ _ _ _ _ _ Hi1) as El.
  apply cwp_bind. eapply cwp_copy_inner_r with (sr := r) (cs := cs).
  - eapply rely_local; [exact R2|right; now left|exact Hb1].
  - eapply rely_local; [exact R2|now left|exact Hd1].
  - exact (iv_vis _ _ _ _ _ _ _ _ _ Hi1).
  - exact (iv_ot _ _ _ _ _ _ _ _ _ Hi1).
  - eapply owns_from. exact (iv_ks _ _ _ _ _ _ _ _ _ Hi1).
  - apply rtakeN_len. lia.
  - apply rtakeN_len. lia.
  - intros h3 R3 Hb3 Hd3. cbn [when pbind].
    assert (Hcn3 : own (c :: R) h3 c (enc cn)) by (eapply own_rely; [exact R3|exact Hcn]).
    eapply cwp_pub_rel with (R := R) (ns := takeN i ns ++ [cn]); [exact Hb3|exact Hd3| |oc| |].
    + symmetry. apply (lv1_cut B BL); [exact (wf_kids _ _ _ _ Hw)|exact Hwc].
    + rewrite map_app. apply Forall2_app; [|constructor; [|constructor]].
      * apply owns_incl with (R := c :: R); [inc|]. eapply owns_rely; [exact R3|].
        unfold takeN. rewrite <- firstn_map. apply F2_take. exact (iv_ks _ _ _ _ _ _ _ _ _ Hi1).
      * eapply own_incl; [|exact Hcn3]. inc.
    + intros Hn. apply cwp_done. apply K; [rl|exact Hn|].
      eapply carries_in; [exact Hb3|cbn [c_kids icell ptrs]; right; apply in_or_app; right; now left|].
      eapply carries_rely; [exact R3|apply in_or_app; right; now left|exact Htl2].
Qed.

Lemma cwp_when_dec m v hp p n a (F : post unit) L R h : haddr hp = Ok a -> prel L (ow m a ++ R) h hp p -> pos_ok v p n ->
  (forall h', rely L (G ++ R) h h' -> F tt L R h') -> cwp (when m (t_dec B BL v hp)) F L (ow m a ++ R) h.
Proof.
  intros Ea Hp Hok K. destruct m; cbn [when VecPush.own app] in *.
  - eapply t_dec_ok; [exact Ea|exact Hp|exact Hok|exact K].
  - apply cwp_done. apply K, rely_refl.
Qed.

Lemma t_push_ok v : forall m hp p n a tl tn ts r (F : post (option nat)) L R h,
  haddr hp = Ok a -> prel L (ow m a ++ R) h hp p -> own (ow m a ++ tl :: R) h tl (enc tn) -> pos_ok v p n -> full O tn ->
  room B BL v p n -> (is_rel n = true -> ts = lwidth) -> (m = true -> is_rel n = false) ->
  push_tail_node B BL v p tn ts = Ok r ->
  (forall b n' h', r = Some n' -> rely L (G ++ R) h h' -> own (b :: R) h' b (enc n') -> carries h' b tl tn -> F (Some b) L (b :: R) h') ->
  (forall h', r = None -> rely L (G ++ ow m a ++ tl :: R) h h' -> F None L (ow m a ++ tl :: R) h') ->
  cwp (t_push B BL m v hp tl ts) F L (ow m a ++ tl :: R) h.
Proof.
  induction v as [|l IH]; intros m hp p n a tl tn ts r F L R h Ea Hp Htl Hok Hf Hroom Hts Hm Hu K1 K2;
    cbn [t_push push_tail_node] in *; [discriminate|].
  pose proof (pos_ok_wf _ _ _ _ _ Hok) as Hw.
  apply cwp_bind. eapply cwp_lift; [exact Ea|]. apply cwp_bind.
  eapply cwp_view; [apply prel_incl with (L := L) (R := ow m a ++ R); [inc|inc|exact Hp]|]. intros h1 R1.
  eapply prel_rely with (h' := h1) in Hp; [|rl]. eapply own_rely in Htl; [|exact R1].
  destruct (prel_cases _ _ _ _ _ _ _ _ _ _ _ Hp Ea Hok) as (rr & cs & o & ns & -> & Hi & El & Hcase).
  apply cwp_bind. eapply cwp_inner; [apply vis_incl with (L := L) (R := ow m a ++ R); [inc|inc|exact (iv_vis _ _ _ _ _ _ _ _ _ Hi)]|]. intros h2 R2.
  eapply prel_rely with (h' := h2) in Hp; [|rl]. eapply own_rely in Htl; [|exact R2]. eapply iv_rely with (h' := h2) in Hi; [|rl].
  assert (R02 : rely L (G ++ ow m a ++ tl :: R) h h2) by rl.
  assert (K1' : forall b n' h', r = Some n' -> rely L (G ++ R) h2 h' -> own (b :: R) h' b (enc n') -> carries h' b tl tn -> F (Some b) L (b :: R) h').
  { intros b n' h' Er Rl. apply K1; [exact Er|]. rl. }
  assert (K2' : forall h', r = None -> rely L (G ++ ow m a ++ tl :: R) h2 h' -> F None L (ow m a ++ tl :: R) h').
  { intros h' Er Rl. apply K2; [exact Er|]. rl. }
  clear K1 K2 R1 R2 R02 h h1. rename K1' into K1, K2' into K2, h2 into h.
  destruct (make_path_ok B BL l tn Hf) as [Hpr Hpe].
  destruct Hcase as [(rt & sz & -> & -> & -> & ->)|(-> & -> & Hh & Hpp & Hrel)].
  - (* relaxed *)
    cbn [is_rel] in *. specialize (Hts eq_refl). cbn [blank].
    assert (m = false) as -> by (destruct m; [now specialize (Hm eq_refl)|reflexivity]). cbn [VecPush.own app t_mine] in *.
    assert (exists ini x, ns = ini ++ [x]) as (ini & x & ->).
    { destruct ns as [|x ini] using rev_ind; [destruct Hw as (Hw & _); cbn in Hw; lia|eauto]. }
    assert (exists ca c, cs = ca ++ [c]) as (ca & c & ->).
    { destruct cs as [|c ca] using rev_ind; [rewrite lenN_app in El; cbn in El; lia|eauto]. }
    assert (Elc : lenN ca = lenN ini) by (rewrite !lenN_snoc in El; lia).
    assert (Hlsz : lenN sz = lenN ini + 1).
    { destruct Hw as (_ & _ & Hz). rewrite Hz, lenN_sums, lenN_map, lenN_snoc. reflexivity. }
    pose proof (rel_last _ _ _ _ _ Hw) as Hlast.
    assert (Hsa : size_at B BL (Datatypes.S l) (PRel (Inner (Some sz) (ini ++ [x])) sz) (lenN ini) = Ok (nsize x)).
    { unfold size_at, size_before. rewrite (rel_before _ _ _ _ _ _ Hw). cbn [rbind size_sbh].
      rewrite (rel_at _ _ _ _ _ _ _ Hw). cbn [rbind]. f_equal. lia. }
    rewrite Hlsz in *. replace (lenN ini + 1 - 1) with (lenN ini) in * by lia.
    rewrite Hsa, Hlast in Hu. cbn [rbind inner_of] in Hu.
    pose proof (iv_ks _ _ _ _ _ _ _ _ _ Hi) as Hks. rewrite map_app in Hks. cbn [map] in Hks.
    assert (Elen : lenN ca = lenN (map enc ini)) by (rewrite lenN_map; lia).
    destruct (F2_mid _ _ _ _ _ _ _ Elen Hks) as (Hk1 & Hkx & _).
    pose proof (wf_kids _ _ _ _ Hw) as Hwk. cbn [kids] in Hwk. apply Forall_app in Hwk. destruct Hwk as [Hwi Hwx].
    apply Forall_inv in Hwx.
    set (s := nsize (Inner (Some sz) (ini ++ [x]))) in *.
    (* the values produced *)
    assert (V1 : (cs' <- rtakeN (lenN ini + 1) (ini ++ [x]) ;; sz' <- rtakeN (lenN ini + 1) sz ;;
              Ok (Some (Inner (Some (sz' ++ [s + ts])) (cs' ++ [make_path l tn])))) =
            Ok (Some (Inner (Some (takeN (lenN ini + 1) sz ++ [s + ts])) (takeN (lenN ini + 1) (ini ++ [x]) ++ [make_path l tn])))).
    { rewrite !rtakeN_len by (rewrite ?lenN_snoc; lia). reflexivity. }
    assert (V2 : forall c', (cs' <- rtakeN (lenN ini) (ini ++ [x]) ;; sz' <- rtakeN (lenN ini) sz ;;
              Ok (Some (Inner (Some (sz' ++ [s + ts])) (cs' ++ [c'])))) =
            Ok (Some (Inner (Some (takeN (lenN ini) sz ++ [s + ts])) (takeN (lenN ini) (ini ++ [x]) ++ [c'])))).
    { intros c'. rewrite !rtakeN_len by (rewrite ?lenN_snoc; lia). reflexivity. }
    assert (Hcp : exists q, child_pos B BL l x (nsize x) = Ok q /\ pos_ok l q x /\ is_sub q = true) by (now apply child_pos_ok).
    destruct Hcp as (q & Eq & Hq & Hsub).
    (* a new path in a copy of the node *)
    assert (PC : forall h1, rely L (G ++ tl :: R) h h1 ->
       Ok (Some (Inner (Some (takeN (lenN ini + 1) sz ++ [s + ts])) (takeN (lenN ini + 1) (ini ++ [x]) ++ [make_path l tn]))) = Ok r ->
       cwp (c <-- t_make_path l tl ;;
            n <-- t_make_inner_r (S l) ;; p' <-- t_view (HRel a rt) ;; s <-- plift (psize B BL (S l) p') ;;
            _ <-- t_copy_inner_r n a (lenN ini + 1) [c] [s + ts] ;; _ <-- when false (t_dec B BL (S l) (HRel a rt)) ;; Done (Some n))
         F L (tl :: R) h1).
    { intros h1 R1 Er. injection Er as Er. apply cwp_bind.
      eapply cwp_make_path; [eapply own_rely; [exact R1|exact Htl]|]. intros c' h2 R2 Hc' Hr'.
      eapply cwp_finish_copy with (cn := make_path l tn) (ns := ini ++ [x]) (sz := sz) (s := s) (tl := tl);
        [|exact Hok|exact Hc'|now apply reg_wf|exact Hr'|rewrite lenN_snoc; lia|exact Hlast|].
      - apply prel_incl with (L := L) (R := R); [inc|inc|]. eapply prel_rely with (h := h); [rl|exact Hp].
      - intros b h3 R3 Hb Hrb. apply (K1 b _ h3 (eq_sym Er)); [rl|exact Hb|exact Hrb]. }
    assert (Hsh : N.shiftl 1 (sh B BL l) = span l) by apply shiftl_span.
    rewrite Hsh in *.
    assert (Hroomx : nsize x <> span l -> room B BL l q x).
    { intros Hne _. split; [intros m' ->; exact (RrbConcat.child_not_full _ _ _ _ _ _ Eq)|]. pose proof (wf_size _ _ _ _ Hwx). lia. }
    apply cwp_bind. eapply cwp_lift; [rewrite <- Hsa; apply (size_at_blank _ _ _ (PRel (Inner (Some sz) (ini ++ [x])) sz))|].
    apply cwp_bind. apply cwp_done. cbv zeta iota beta.
    destruct ((nsize x =? span l) || match l with O => true | Datatypes.S _ => false end) eqn:E1.
    + destruct (width B <=? lenN ini + 1) eqn:E2.
      * injection Hu as <-. apply cwp_done. apply K2; [reflexivity|apply rely_refl].
      * apply PC; [apply rely_refl|]. rewrite <- Hu. symmetry. exact V1.
    + apply orb_false_elim in E1. destruct E1 as [E1 El0]. apply N.eqb_neq in E1. specialize (Hroomx E1).
      destruct (width B <=? lenN ini) eqn:E2; [injection Hu as <-; apply cwp_done; apply K2; [reflexivity|apply rely_refl]|].
      rewrite rnthN_app in Hu by reflexivity. cbn [rbind] in Hu. rewrite Eq in Hu. cbn [rbind] in Hu.
      apply rbind_ok in Hu. destruct Hu as (rx & Hrx & Hu).
      apply cwp_bind. eapply cwp_lift; [apply rnthN_app; exact Elc|].
      apply cwp_bind. eapply cwp_open with (k := KMaybe c (nsize x)); [apply own_nvis; eapply own_incl; [|exact Hkx]; inc|exact Eq|].
      intros hq h1 R1 Ehq Hhq.
      assert (Hks1 : own R h1 c (enc x)) by (eapply own_rely with (L := L) (h := h); [rl|exact Hkx]).
      apply cwp_bind. eapply IH with (m := false) (n := x); [exact Ehq| | |exact Hq|exact Hf|exact Hroomx|intros _; exact Hts|discriminate|exact Hrx| |].
      * eapply prel_see; [exact Hhq|exact Ehq|exact (pos_ok_node _ _ _ _ _ Hq)|]. apply own_nvis. exact Hks1.
      * eapply own_rely; [exact R1|exact Htl].
      * intros c' cn h2 -> R2 Hc' Hr'. cbv iota beta. rewrite V2 in Hu. injection Hu as <-.
        assert (wf l cn) as Hwcn.
        { destruct l as [|l']; [discriminate|]. eapply push_grows; eauto. }
        eapply cwp_finish_copy with (cn := cn) (ns := ini ++ [x]) (sz := sz) (s := s) (tl := tl);
          [|exact Hok|exact Hc'|exact Hwcn|exact Hr'|rewrite lenN_snoc; lia|exact Hlast|].
        -- apply prel_incl with (L := L) (R := R); [inc|inc|]. eapply prel_rely with (h := h); [rl|exact Hp].
        -- intros b h3 R3 Hb Hrb. eapply K1; [reflexivity|rl|exact Hb|exact Hrb].
      * intros h2 -> R2. cbv iota beta. cbn [VecPush.own app] in *. destruct (lenN ini + 1 <? width B) eqn:E3.
        -- apply PC; [rl|]. rewrite <- Hu. symmetry. exact V1.
        -- injection Hu as <-. apply cwp_done. apply K2; [reflexivity|rl].
  - (* regular *)
    destruct (push_reg_step _ _ _ _ _ Hok Hrel) as (s & ini & x & Ep & En & Eland & Eidx & Enew).
    { apply (proj1 (Hroom Hrel)). } { apply (proj2 (Hroom Hrel)). }
    injection En as ->.
    assert (exists ca c, cs = ca ++ [c]) as (ca & c & ->).
    { destruct cs as [|c ca] using rev_ind; [rewrite lenN_app in El; cbn in El; lia|eauto]. }
    assert (Elc : lenN ca = lenN ini) by (rewrite !lenN_snoc in El; lia).
    (* what the value operation does *)
    assert (exists ni cn, index B BL (Datatypes.S l) p (s + lwidth - 1) = Ok ni /\
       r = Some (Inner None (takeN ni (ini ++ [x]) ++ [cn])) /\ ni <= lenN (ini ++ [x]) /\
       ((ni = lenN ini /\ pos_ok l (PReg x s) x /\ s <> 0 /\ room B BL l (PReg x s) x /\ is_rel x = false /\
         push_tail_node B BL l (PReg x s) tn ts = Ok (Some cn)) \/
        (ni = lenN ini + 1 /\ cn = make_path l tn))) as (ni & cn & Eni & -> & Hni & Hkind).
    { assert (Hu' : (c <- (if (lenN ini =? match index B BL (Datatypes.S l) p (s + lwidth - 1) with Ok i => i | UB => 0 end) then
                    q <- mk_reg x s ;; r <- push_tail_node B BL l q tn ts ;; match r with Some c => Ok c | None => UB end
                  else Ok (make_path l tn)) ;;
            cs' <- rtakeN (match index B BL (Datatypes.S l) p (s + lwidth - 1) with Ok i => i | UB => 0 end) (ini ++ [x]) ;;
            Ok (Some (Inner None (cs' ++ [c])))) = Ok r).
      { assert (exists i, index B BL (Datatypes.S l) p (s + lwidth - 1) = Ok i) as [i Ei] by (destruct Enew as [(E & _)|E]; eauto).
        rewrite Ei. destruct Ep as [-> | ->]; rewrite Eland in Hu; cbn [negb N.eqb inner_of rbind last_oh] in Hu;
          rewrite Eidx, Ei in Hu; cbn [rbind] in Hu; rewrite rnthN_app in Hu by reflexivity; exact Hu. }
      clear Hu. destruct Enew as [(Ei & Hpx & Hs0 & Hrx & Hlx)|Ei]; rewrite Ei in Hu'.
      - rewrite N.eqb_refl in Hu'. unfold mk_reg in Hu'. destruct (N.eqb_spec s 0) as [|_]; [easy|]. cbn [rbind] in Hu'.
        apply rbind_ok in Hu'. destruct Hu' as (cn & Hcn & Hu'). apply rbind_ok in Hcn. destruct Hcn as (rx & Hrxx & Hcn).
        destruct rx as [cn'|]; [|discriminate]. injection Hcn as ->. apply rbind_ok in Hu'. destruct Hu' as (cs' & Hcs' & Hu').
        injection Hu' as <-. apply rtakeN_inv in Hcs'. destruct Hcs' as [Hle ->].
        exists (lenN ini), cn. split; [exact Ei|]. split; [reflexivity|]. split; [exact Hle|]. left.
        split; [reflexivity|]. split; [exact Hpx|]. split; [exact Hs0|]. split; [|auto]. intros _. split; [discriminate|exact Hlx].
      - destruct (N.eqb_spec (lenN ini) (lenN ini + 1)); [lia|]. cbn [rbind] in Hu'.
        apply rbind_ok in Hu'. destruct Hu' as (cs' & Hcs' & Hu').
        injection Hu' as <-. apply rtakeN_inv in Hcs'. destruct Hcs' as [Hle ->].
        exists (lenN ini + 1), (make_path l tn). split; [exact Ei|]. split; [reflexivity|]. split; [exact Hle|]. now right. }
    clear Enew Hu.
    (* getting the new child *)
    set (child := fun mu : bool => (if lenN ini =? ni then
               x <-- plift (rnthN (ca ++ [c]) (lenN ini)) ;;
               q <-- t_open B BL l (KReg x s) ;;
               r <-- t_push B BL mu l q tl ts ;;
               match r with Some c => Done c | None => Fail end
             else t_make_path l tl) : prog body nat).
    set (rest := fun (m' : bool) R' => if lenN ini =? ni then R' else ow m' c ++ R').
    assert (CH : forall m' (F' : post nat) L' R' h', own (ow m' c ++ R') h' c (enc x) -> own (ow m' c ++ tl :: R') h' tl (enc tn) ->
      (forall c' h2, rely L' (G ++ rest m' R') h' h2 -> own (c' :: rest m' R') h2 c' (enc cn) -> carries h2 c' tl tn -> F' c' L' (c' :: rest m' R') h2) ->
      cwp (child m') F' L' (ow m' c ++ tl :: R') h').
    { intros m' F' L' R' h' Hx Ht KC. unfold child, rest in *. destruct Hkind as [(-> & Hpx & Hs0 & Hrx & Hrelx & Hpu)|(-> & ->)].
      - rewrite N.eqb_refl in *. apply cwp_bind. eapply cwp_lift; [apply rnthN_app; exact Elc|].
        apply cwp_bind. eapply cwp_open with (k := KReg c s) (p := PReg x s).
        { apply own_nvis. eapply own_incl; [|exact Hx]. inc. }
        { cbn. unfold mk_reg. destruct (N.eqb_spec s 0); [easy|reflexivity]. }
        intros hq h1 R1 Ehq Hhq.
        apply cwp_bind. eapply IH with (n := x); [exact Ehq| |eapply own_rely; [exact R1|exact Ht]|exact Hpx|exact Hf|exact Hrx| | |exact Hpu| |].
        + eapply prel_see; [exact Hhq|exact Ehq|exact (pos_ok_node _ _ _ _ _ Hpx)|]. apply own_nvis.
          eapply own_rely with (L := L') (h := h'); [rl|exact Hx].
        + congruence.
        + congruence.
        + intros b n' h2 E R2 Hb Hrb. injection E as <-. apply cwp_done. apply KC; [rl|exact Hb|exact Hrb].
        + intros h2 E. discriminate.
      - destruct (N.eqb_spec (lenN ini) (lenN ini + 1)) as [|_]; [lia|].
        apply cwp_roots with (R' := tl :: ow m' c ++ R'); [oc|].
        eapply cwp_make_path; [eapply own_incl; [|exact Ht]; inc|exact KC]. }
    assert (RED : cwp (mutate <-- t_mine m a ;;
             if mutate : bool then c0 <-- child mutate ;; _ <-- t_put_last a ni c0 ;; Done (Some a)
             else n0 <-- t_make_inner ;; c0 <-- child mutate ;; _ <-- t_copy_inner n0 a ni [c0] ;;
                  _ <-- when m (t_dec B BL (S l) hp) ;; Done (Some n0)) F L (ow m a ++ tl :: R) h).
    2: { unfold child in *. clear child CH. rewrite <- (index_blank B BL) in Eidx, Eni.
      destruct Ep as [-> | ->]; cbn [blank] in *; rewrite Eland; cbn [negb N.eqb];
        (apply cwp_bind; eapply cwp_lift; [exact Eidx|]);
        (apply cwp_bind; eapply cwp_lift; [exact Eni|]); exact RED. }
    (* on a copy *)
    assert (CP : forall h1, rely L (G ++ ow m a ++ tl :: R) h h1 ->
       cwp (n0 <-- t_make_inner ;; c0 <-- child false ;; _ <-- t_copy_inner n0 a ni [c0] ;;
            _ <-- when m (t_dec B BL (S l) hp) ;; Done (Some n0)) F L (ow m a ++ tl :: R) h1).
    { intros h1 R1. apply cwp_bind. apply cwp_make_inner. intros b h2 R2 Hb2. apply cwp_bind.
      pose proof (iv_ks _ _ _ _ _ _ _ _ _ Hi) as Hks. rewrite map_app in Hks. cbn [map] in Hks.
      assert (Elen : lenN ca = lenN (map enc ini)) by (rewrite lenN_map; lia).
      destruct (F2_mid _ _ _ _ _ _ _ Elen Hks) as (Hk1 & Hkx & _).
      apply cwp_roots with (R' := tl :: ow m a ++ R); [oc|]. apply (CH false).
      { change (own (ow m a ++ R) h2 c (enc x)). eapply own_rely with (L := L) (h := h); [rl|exact Hkx]. }
      { change (own (tl :: ow m a ++ R) h2 tl (enc tn)). apply own_incl with (R := ow m a ++ tl :: R); [inc|]. eapply own_rely with (L := L) (h := h); [rl|exact Htl]. }
      assert (Er : rest false (ow m a ++ R) = ow m a ++ R) by (unfold rest; now destruct (lenN ini =? ni)).
      rewrite Er. intros c' h3 R3 Hc' Hr'.
      assert (Hi3 : iv L (ow m a ++ R) h3 a None (ca ++ [c]) None (ini ++ [x])) by (eapply iv_rely with (h := h); [rl|exact Hi]).
      assert (Hp3 : prel L (ow m a ++ R) h3 hp p) by (eapply prel_rely with (h := h); [rl|exact Hp]).
      apply cwp_bind. eapply cwp_copy_inner with (sr := None) (cs := ca ++ [c]).
      - eapply rely_local; [exact R3|now left|exact Hb2].
      - apply vis_incl with (L := L) (R := ow m a ++ R); [inc|inc|exact (iv_vis _ _ _ _ _ _ _ _ _ Hi3)].
      - apply froms_incl with (R := ow m a ++ R); [inc|]. eapply owns_from. exact (iv_ks _ _ _ _ _ _ _ _ _ Hi3).
      - apply rtakeN_len. lia.
      - intros h4 R4 Hb4. apply cwp_bind.
        apply cwp_roots with (R' := ow m a ++ takeN ni (ca ++ [c]) ++ c' :: R); [oc|].
        assert (Hks4 : Forall2 (own (takeN ni (ca ++ [c]) ++ c' :: R) h4) (takeN ni (ca ++ [c])) (map enc (takeN ni (ini ++ [x])))).
        { eapply owns_root; [inc|]. eapply (owns_rep G). eapply owns_rely with (R := ow m a ++ R) (L := L) (h := h3); [rl|].
          unfold takeN. rewrite <- firstn_map. apply F2_take. exact (iv_ks _ _ _ _ _ _ _ _ _ Hi3). }
        assert (Hc4 : own (takeN ni (ca ++ [c]) ++ c' :: R) h4 c' (enc cn)).
        { eapply own_root; [apply in_or_app; right; now left|]. eapply own_rely with (L := L) (h := h3) in Hc'; [apply Hc'|exact R4]. }
        assert (Hr4 : carries h4 c' tl tn) by (eapply carries_rely; [exact R4|apply in_or_app; right; now left|exact Hr']).
        eapply cwp_when_dec; [exact Ea| |exact Hok|].
        + apply prel_incl with (L := L) (R := ow m a ++ R); [inc|inc|]. eapply prel_rely with (h := h3); [rl|exact Hp3].
        + intros h5 R5.
          eapply cwp_pub_inner with (R := R) (o := None) (ns := takeN ni (ini ++ [x]) ++ [cn]).
          * eapply rely_local; [exact R5|now left|exact Hb4].
          * oc.
          * exact I.
          * rewrite map_app. eapply owns_rely; [exact R5|]. apply Forall2_app; [exact Hks4|constructor; [exact Hc4|constructor]].
          * intros Hn. apply cwp_done. eapply K1; [reflexivity|rl|exact Hn|].
            eapply carries_in; [eapply rely_local; [exact R5|now left|exact Hb4]|cbn [c_kids icell ptrs]; apply in_or_app; right; now left|].
            eapply carries_rely; [exact R5|apply in_or_app; right; apply in_or_app; right; now left|exact Hr4]. }
    apply cwp_bind. destruct m; cbn [t_mine].
    2: { apply cwp_done. apply CP, rely_refl. }
    cbn [VecPush.own app] in *.
    eapply cwp_uq_iv; [eapply iv_incl; [| |exact Hi]; inc|exact CP|].
    intros h1 R1 Hc1 Hi1. cbn [ptrs] in *.
    pose proof (iv_ks _ _ _ _ _ _ _ _ _ Hi1) as Hks. rewrite map_app in Hks. cbn [map] in Hks.
    assert (Elen : lenN ca = lenN (map enc ini)) by (rewrite lenN_map; lia).
    destruct (F2_mid _ _ _ _ _ _ _ Elen Hks) as (Hk1 & Hkx & _).
    apply cwp_bind. apply cwp_roots with (R' := c :: tl :: ca ++ R); [oc|]. apply (CH true).
    { apply own_root; [now left|]. apply Hkx. }
    { apply own_incl with (R := tl :: R); [inc|]. eapply own_rely with (L := L) (h := h); [rl|]. apply own_root; [now left|]. apply Htl. }
    assert (Er : forall z, occ z (rest true (ca ++ R)) = occ z (takeN ni (ca ++ [c]) ++ R)).
    { intros z. unfold rest. destruct Hkind as [(-> & _)|(-> & _)].
      - rewrite N.eqb_refl. rewrite <- Elc, takeN_app. reflexivity.
      - destruct (N.eqb_spec (lenN ini) (lenN ini + 1)) as [|_]; [lia|]. rewrite takeN_all by (rewrite lenN_snoc; lia).
        cbn [VecPush.own app occ]. rewrite !occ_app. cbn [occ]. lia. }
    assert (Ei : incl (takeN ni (ca ++ [c]) ++ R) (rest true (ca ++ R))) by (apply occ_incl; intros z; now rewrite Er).
    intros c' h2 R2 Hc' Hr'.
    assert (R2' : rely (a :: L) (G ++ takeN ni (ca ++ [c]) ++ R) h1 h2).
    { eapply rely_incl; [apply incl_refl| |exact R2]. apply incl_app; [apply incl_appl, incl_refl|apply incl_appr, Ei]. }
    apply cwp_bind. eapply cwp_put_last; [reflexivity|eapply rely_local; [exact R2|now left|exact Hc1]|apply rtakeN_len; lia|].
    intros h3 R3 Hc3. 
    assert (R3' : rely L (G ++ takeN ni (ca ++ [c]) ++ R) h2 h3).
    { eapply rely_incl; [apply incl_refl| |exact R3]. apply incl_app; [apply incl_appl, incl_refl|apply incl_appr, incl_tl, Ei]. }
    eapply cwp_pub_inner with (R := R) (o := None) (ns := takeN ni (ini ++ [x]) ++ [cn]); [exact Hc3| |exact I| |].
    + intros z. cbn [occ ptrs]. rewrite Er. revert z. oc.
    + rewrite map_app. apply Forall2_app; [|constructor; [|constructor]].
      * eapply owns_root; [intros z Hz; right; apply Ei; apply in_or_app; now left|]. eapply (owns_rep G).
        eapply owns_rely with (R := takeN ni (ca ++ [c]) ++ R) (L := L) (h := h1); [rl|].
        eapply owns_root; [inc|]. eapply (owns_rep G).
        unfold takeN. rewrite <- firstn_map. apply F2_take. exact (iv_ks _ _ _ _ _ _ _ _ _ Hi1).
      * eapply own_rely; [exact R3|exact Hc'].
    + intros Hn. apply cwp_done. eapply K1; [reflexivity|rl|exact Hn|].
      eapply carries_in; [exact Hc3|cbn [c_kids icell ptrs]; apply in_or_app; right; now left|].
      eapply carries_rely; [exact R3|apply in_or_app; right; now left|exact Hr'].
Qed.
End VCP.
