(** The positions of position.hpp see the nodes they are meant to see. *)
From Coq Require Import List NArith Arith Bool Lia ZifyN ZifyNat ZifyBool.
From Verif Require Import Common NList Rrb RrbInv.
Import ListNotations.
Local Open Scope N_scope.

Set Default Goal Selector "!".

Section Pos.
Context {T : Type}.
Variables B BL : N.

Notation sh := (sh B BL).
Notation width := (width B).
Notation lwidth := (lwidth BL).
Notation span := (span B BL).
Notation full := (@full T B BL).
Notation reg := (@reg T B BL).
Notation wf := (@wf T B BL).
Notation count := (@count T B BL).
Notation index := (@index T B BL).
Notation subindex := (@subindex T B BL).
Notation towards := (@towards T B BL).
Notation child_pos := (@child_pos T B BL).
Notation maybe_relaxed := (@maybe_relaxed T B BL).
Notation mk_sub := (@mk_sub T B BL).

Inductive pos_ok (v : nat) : pos T -> node T -> Prop :=
| ok_full n : full v n -> pos_ok v (PFull n) n
| ok_reg n s : wf v n -> is_rel n = false -> 0 < s -> (s - 1) mod span v + 1 = nsize n ->
    pos_ok v (PReg n s) n
| ok_sub n s : wf v n -> is_rel n = false -> s = nsize n -> pos_ok v (PSub n s) n
| ok_rel cs sz : wf v (Inner (Some sz) cs) ->
    pos_ok v (PRel (Inner (Some sz) cs) sz) (Inner (Some sz) cs).

(** Index [idx] handed to the visitor of position [p] denotes the [i]-th element. *)
Definition addr (v : nat) (p : pos T) (idx i : N) : Prop :=
  match p with PRel _ _ => idx = i | _ => idx mod span v = i end.

(** Positions made by the _sub family, whose indices are exact. *)
Definition is_sub (p : pos T) : bool :=
  match p with PFull _ | PSub _ _ | PRel _ _ => true | _ => false end.

Definition ncount (n : node T) : N :=
  match n with Leaf xs => lenN xs | Inner _ cs => lenN cs end.

Lemma pos_ok_wf v p n : pos_ok v p n -> wf v n.
Proof. destruct 1; auto. now apply full_wf. Qed.

Lemma pos_ok_node v p n : pos_ok v p n -> pnode p = Ok n.
Proof. destruct 1; reflexivity. Qed.

Lemma reg_not_rel v n : reg v n -> is_rel n = false.
Proof. destruct v, n as [|[]]; cbn; easy. Qed.
Lemma full_not_rel v n : full v n -> is_rel n = false.
Proof. destruct v, n as [|[]]; cbn; easy. Qed.

Lemma shiftl_span l : N.shiftl 1 (sh l) = span l.
Proof. rewrite N.shiftl_mul_pow2. unfold RrbInv.span. lia. Qed.
Lemma shiftl_span_mul x l : N.shiftl x (sh l) = x * span l.
Proof. now rewrite N.shiftl_mul_pow2. Qed.
Lemma shiftl_width l : N.shiftl width (sh l) = span (S l).
Proof. rewrite N.shiftl_mul_pow2, span_S. reflexivity. Qed.
Lemma shiftr_span x l : N.shiftr x (sh l) = x / span l.
Proof. now rewrite N.shiftr_div_pow2. Qed.
Lemma land_index x l :
  N.land (N.shiftr x (sh l)) (mask B) = (x mod span (S l)) / span l.
Proof.
  unfold mask, Rrb.width. rewrite land_mask, N.shiftr_div_pow2, div_mod_pow.
  unfold RrbInv.span. do 3 f_equal. unfold Rrb.sh. lia.
Qed.
Lemma land_leaf x : N.land x (lmask BL) = x mod span 0.
Proof. unfold lmask. rewrite span_0. unfold Rrb.lwidth. apply land_mask. Qed.
Lemma mod_span_S x l : (x mod span (S l)) mod span l = x mod span l.
Proof.
  unfold RrbInv.span. replace (sh (S l)) with (sh l + B); [apply mod_mod_pow|].
  unfold Rrb.sh. lia.
Qed.
Lemma mod_span_lt x v : x mod span v < span v.
Proof. apply N.mod_lt. pose proof (span_pos B BL v). lia. Qed.

(** A non-relaxed inner node taken apart. *)
Lemma nonrel_inv l n : wf (S l) n -> is_rel n = false ->
  exists init last, n = Inner None (init ++ [last]) /\ Forall (full l) init /\
    reg l last /\ lenN init + 1 <= width /\
    nsize n = lenN init * span l + nsize last /\ 0 < nsize last <= span l.
Proof.
  destruct n as [|[sz|]]; cbn [RrbInv.wf is_rel]; try easy.
  intros (init & last & -> & Hf & Hr & Hl) _.
  exists init, last. rewrite lenN_app, lenN_cons, lenN_nil in Hl.
  split; [reflexivity|]. split; [auto|]. split; [auto|]. split; [lia|].
  rewrite nsize_inner. fold (csize (init ++ [last])).
  rewrite csize_snoc, (full_csize _ _ _ _ Hf).
  pose proof (reg_size_bounds _ _ _ _ Hr). split; lia.
Qed.

Lemma last_div l a b : 0 < b <= span l -> (a * span l + b - 1) / span l = a.
Proof. intros H. apply (div_unique' _ _ _ (b - 1)); lia. Qed.
Lemma last_mod l a b : 0 < b <= span l -> (a * span l + b - 1) mod span l = b - 1.
Proof. intros H. apply (mod_unique' _ _ a); lia. Qed.

Lemma wf_kids l n : wf (S l) n -> Forall (wf l) (kids n).
Proof.
  destruct n as [|[sz|]]; cbn [RrbInv.wf kids]; try easy.
  intros (init & last & -> & Hf & Hr & Hl).
  apply Forall_app. split.
  - eapply Forall_impl; [|exact Hf]. intros; now apply full_wf.
  - constructor; auto. now apply reg_wf.
Qed.
Lemma wf_inner l n : wf (S l) n -> exists r cs, n = Inner r cs.
Proof. destruct n as [|r cs]; [easy|]; eauto. Qed.
Lemma wf_leaf n : wf O n -> exists xs, n = Leaf xs /\ 0 < lenN xs <= lwidth.
Proof. destruct n as [xs|]; [|easy]. cbn. eauto. Qed.
Lemma wf_count_pos v n : wf v n -> 0 < ncount n.
Proof.
  destruct v.
  - intros H. apply wf_leaf in H. destruct H as (xs & -> & H). cbn. lia.
  - destruct n as [|[sz|]]; cbn [RrbInv.wf ncount]; try easy.
    intros (init & last & -> & _). rewrite lenN_app, lenN_cons. lia.
Qed.
Lemma wf_count_le l n : wf (S l) n -> lenN (kids n) <= width.
Proof.
  destruct n as [|[sz|]]; cbn [RrbInv.wf kids]; try easy.
  intros (init & last & -> & _ & _ & H). exact H.
Qed.

Lemma count_ok v p n : pos_ok v p n -> count v p = Ok (ncount n).
Proof.
  intros H. destruct v as [|l].
  - destruct H as [n Hf|n s Hw Hr Hs E|n s Hw Hr E|cs sz Hw]; cbn.
    + destruct n; cbn in *; [now rewrite Hf|easy].
    + destruct n; cbn in *; [|easy]. rewrite land_leaf.
      rewrite E. reflexivity.
    + destruct n; cbn in *; [now rewrite E|easy].
    + easy.
  - destruct H as [n Hf|n s Hw Hr Hs E|n s Hw Hr E|cs sz Hw]; cbn [Rrb.count Rrb.index].
    + destruct n as [|[]]; cbn in *; try easy. now rewrite (proj1 Hf).
    + destruct (nonrel_inv _ _ Hw Hr) as (init & last & En & Hf & Hrl & Hl & Hn & Hb).
      cbn [rbind]. rewrite land_index.
      replace ((s - 1) mod span (S l)) with (lenN init * span l + nsize last - 1) by lia.
      rewrite last_div by lia. subst n. cbn. rewrite lenN_app. reflexivity.
    + destruct (nonrel_inv _ _ Hw Hr) as (init & last & En & Hf & Hrl & Hl & Hn & Hb).
      rewrite shiftr_span, E, Hn, last_div by lia. subst n. cbn. rewrite lenN_app. reflexivity.
    + cbn. destruct Hw as (_ & _ & ->). now rewrite lenN_sums, lenN_map.
Qed.

Lemma psize_ok v p n : pos_ok v p n -> is_sub p = true -> psize B BL v p = Ok (nsize n).
Proof.
  intros H Hs. destruct H as [n Hf|n s Hw Hr Hp E|n s Hw Hr E|cs sz Hw]; cbn in Hs; try easy;
    cbn [psize].
  - rewrite (full_size _ _ _ _ Hf). destruct v; [now rewrite span_0|]. now rewrite shiftl_width.
  - now rewrite E.
  - destruct v; [easy|]. destruct Hw as ([Hw _] & _ & ->). unfold last_of.
    destruct cs as [|c cs] using rev_ind; [cbn in Hw; lia|].
    rewrite lenN_sums, lenN_map, map_app. cbn [map].
    rewrite rnth_sums.
    + rewrite nsize_inner, map_app, sumN_app. cbn. f_equal. unfold sumN. lia.
    + rewrite lenN_map, lenN_app. cbn. lia.
Qed.

(** The size table of a relaxed node. *)
Lemma last_table cs : cs <> [] -> last_of (sums 0 (map (@nsize T) cs)) = Ok (csize cs).
Proof.
  intros H. destruct cs as [|c cs] using rev_ind; [easy|].
  unfold last_of. rewrite lenN_sums, lenN_map, map_app. cbn [map]. rewrite rnth_sums.
  - rewrite csize_snoc. unfold csize. f_equal; lia.
  - rewrite lenN_map, lenN_app. cbn. lia.
Qed.
Lemma rel_last l sz cs : wf (S l) (Inner (Some sz) cs) ->
  last_of sz = Ok (nsize (Inner (Some sz) cs)).
Proof.
  intros ([H _] & _ & E). rewrite E at 1. rewrite last_table.
  - now rewrite nsize_inner.
  - intros ->. cbn in H. lia.
Qed.

(** Entering a node with its exact size. *)
Lemma mk_sub_ok v n : wf v n -> is_rel n = false ->
  mk_sub v n (nsize n) = Ok (PSub n (nsize n)).
Proof.
  intros H Hr. pose proof (wf_size _ _ _ _ H) as Hb. destruct v as [|l]; cbn [Rrb.mk_sub].
  - rewrite span_0 in Hb. destruct (N.leb_spec (nsize n) lwidth); [reflexivity|lia].
  - rewrite shiftl_width.
    destruct (N.ltb_spec 0 (nsize n)); [|lia].
    destruct (N.leb_spec (nsize n) (span (S l))); [reflexivity|lia].
Qed.
Lemma maybe_relaxed_ok l n : wf (S l) n -> exists q,
  maybe_relaxed (S l) n (nsize n) = Ok q /\ pos_ok (S l) q n /\ is_sub q = true.
Proof.
  intros H. destruct n as [|[sz|] cs]; [easy| |].
  - exists (PRel (Inner (Some sz) cs) sz). cbn [Rrb.maybe_relaxed].
    rewrite (rel_last _ _ _ H). cbn [rbind]. rewrite N.eqb_refl.
    split; [reflexivity|]. split; [now constructor|reflexivity].
  - exists (PSub (Inner None cs) (nsize (Inner None cs))).
    cbn [Rrb.maybe_relaxed]. rewrite mk_sub_ok by auto.
    split; [reflexivity|]. split; [now constructor|reflexivity].
Qed.
Lemma child_pos_ok v n : wf v n -> exists q,
  child_pos v n (nsize n) = Ok q /\ pos_ok v q n /\ is_sub q = true.
Proof.
  intros H. destruct v as [|l].
  - exists (PSub n (nsize n)). destruct (wf_leaf _ H) as (xs & -> & Hx).
    unfold Rrb.child_pos. rewrite mk_sub_ok by auto.
    split; [reflexivity|]. split; [|reflexivity]. constructor; auto.
  - apply maybe_relaxed_ok. exact H.
Qed.
Lemma addr_refl v q n i : pos_ok v q n -> i < nsize n -> addr v q i i.
Proof.
  intros H Hi. assert (i mod span v = i).
  { apply N.mod_small. pose proof (wf_size _ _ _ _ (pos_ok_wf _ _ _ H)). lia. }
  destruct q; cbn; auto.
Qed.

(** Finding the child holding element [i]. *)
Lemma find_child (cs : list (node T)) i : i < csize cs ->
  exists a c b j, cs = a ++ c :: b /\ i = csize a + j /\ j < nsize c.
Proof.
  revert i. induction cs as [|c cs IH]; intros i H; [rewrite (@csize_nil T) in H; lia|].
  rewrite csize_cons in H. destruct (N.ltb_spec i (nsize c)).
  - exists [], c, cs, i. rewrite (@csize_nil T). cbn. repeat split; lia.
  - destruct (IH (i - nsize c)) as (a & d & b & j & -> & E & Hj); [lia|].
    exists (c :: a), d, b, j. rewrite csize_cons. cbn. repeat split; lia.
Qed.

Lemma scan_app X y Z idx off : Forall (fun s => s <= idx) X -> idx < y ->
  scan (X ++ y :: Z) idx off = Ok (off + lenN X).
Proof.
  intros HX Hy. revert off. induction HX as [|x X Hx HX IH]; intros off; cbn [app scan].
  - destruct (N.leb_spec y idx); [lia|]. rewrite lenN_nil. f_equal; lia.
  - destruct (N.leb_spec x idx); [|lia]. rewrite IH, lenN_cons. f_equal; lia.
Qed.

Lemma sums_le i (l : list N) : Forall (fun s => s <= i + sumN l) (sums i l).
Proof.
  revert i. induction l as [|x l IH]; intros i; cbn [sums]; constructor.
  - rewrite sumN_cons. lia.
  - specialize (IH (i + x)). rewrite sumN_cons.
    eapply Forall_impl; [|exact IH]. cbn. intros; lia.
Qed.

Lemma Forall_dropN {A} (P : A -> Prop) n l : Forall P l -> Forall P (dropN n l).
Proof.
  intros H. rewrite <- (takeN_dropN n l) in H. now apply Forall_app in H.
Qed.
Lemma Forall_takeN {A} (P : A -> Prop) n l : Forall P l -> Forall P (takeN n l).
Proof.
  intros H. rewrite <- (takeN_dropN n l) in H. now apply Forall_app in H.
Qed.

Lemma scan_table (a : list (node T)) c b j o :
  o <= lenN a -> j < nsize c ->
  scan (dropN o (sums 0 (map (@nsize T) (a ++ c :: b)))) (csize a + j) o = Ok (lenN a).
Proof.
  intros Ho Hj. rewrite map_app. cbn [map]. rewrite sums_app, sums_cons.
  fold (csize a).
  rewrite dropN_app_le by (rewrite lenN_sums, lenN_map; lia).
  rewrite scan_app.
  - rewrite lenN_dropN, lenN_sums, lenN_map. f_equal; lia.
  - apply Forall_dropN. eapply Forall_impl; [|apply sums_le].
    cbn. fold (csize a). intros; lia.
  - lia.
Qed.

(** The child of a regular node holding element [i]. *)
Lemma reg_child l init last i :
  Forall (full l) init -> reg l last -> 0 < nsize last <= span l ->
  i < lenN init * span l + nsize last ->
  exists a c b, init ++ [last] = a ++ c :: b /\ lenN a = i / span l /\
    Forall (full l) a /\ csize a = i / span l * span l /\
    i mod span l < nsize c /\
    (b = [] /\ c = last /\ a = init \/ b <> [] /\ full l c).
Proof.
  intros Hf Hr Hb Hi. pose proof (span_pos B BL l) as Hsp.
  assert (i / span l <= lenN init).
  { apply N.lt_succ_r, N.div_lt_upper_bound; lia. }
  destruct (splitN (i / span l) (init ++ [last])) as (a & c & b & E & Ha);
    [rewrite lenN_app, lenN_cons; lia|].
  exists a, c, b. split; [auto|]. split; [auto|].
  pose proof (N.div_mod i (span l) ltac:(lia)) as Hdm.
  destruct b as [|d b] using rev_ind.
  - apply app_inj_tail in E. destruct E as [-> ->].
    split; [auto|]. split; [rewrite (full_csize _ _ _ _ Hf); lia|].
    split; [rewrite <- Ha in *; lia|]. left; auto.
  - clear IHb. rewrite app_comm_cons, app_assoc in E. apply app_inj_tail in E.
    destruct E as [-> ->]. apply Forall_app in Hf. destruct Hf as [Hfa Hfb].
    inversion Hfb; subst.
    split; [auto|]. split; [rewrite (full_csize _ _ _ _ Hfa); lia|].
    split.
    + rewrite (full_size B BL l c) by auto. apply N.mod_lt. lia.
    + right. split; auto. now destruct b.
Qed.

(** The main lemma about positions: indexing and descending towards an element. *)
Lemma towards_ok l p n idx i :
  pos_ok (S l) p n -> addr (S l) p idx i -> i < nsize n ->
  exists a c b j,
    kids n = a ++ c :: b /\ i = csize a + j /\ j < nsize c /\ wf l c /\
    index (S l) p idx = Ok (lenN a) /\
    (exists q idx', towards l p idx (lenN a) = Ok (q, idx') /\ pos_ok l q c /\
                    addr l q idx' j) /\
    (is_rel n = false -> Forall (full l) a /\ csize a = lenN a * span l /\
                         (b <> [] -> full l c)).
Proof.
  intros Hp Ha Hi. pose proof (span_pos B BL l) as Hsp.
  destruct Hp as [n Hf|n s Hw Hr Hs E|n s Hw Hr E|cs sz Hw]; cbn in Ha.
  - (* full *)
    pose proof (full_wf _ _ _ _ Hf) as Hw. pose proof (full_not_rel _ _ Hf) as Hr.
    destruct (nonrel_inv _ _ Hw Hr) as (init & last & -> & Hfi & Hrl & Hl & Hn & Hb).
    destruct (reg_child l init last i) as (a & c & b & E & Hla & Hfa & Hca & Hj & Hcase);
      auto; [lia|].
    assert (full l c) as Hfc.
    { cbn in Hf. destruct Hf as [_ Hf]. rewrite E in Hf. apply Forall_app in Hf.
      destruct Hf as [_ Hf]. now inversion Hf. }
    exists a, c, b, (i mod span l). cbn [kids].
    split; [auto|]. split; [rewrite Hca; pose proof (N.div_mod i (span l)); lia|].
    split; [auto|]. split; [now apply full_wf|].
    cbn [Rrb.index]. rewrite land_index. split; [rewrite Ha, Hla; reflexivity|].
    split; [|intros _; rewrite Hla; auto].
    exists (PFull c), idx. cbn [Rrb.towards inner_of rbind]. rewrite E, rnthN_app by auto.
    split; [reflexivity|]. split; [now constructor|].
    cbn. now rewrite <- mod_span_S, Ha.
  - (* regular *)
    destruct (nonrel_inv _ _ Hw Hr) as (init & last & -> & Hfi & Hrl & Hl & Hn & Hb).
    destruct (reg_child l init last i) as (a & c & b & Ek & Hla & Hfa & Hca & Hj & Hcase);
      auto; [lia|].
    exists a, c, b, (i mod span l). cbn [kids].
    split; [auto|]. split; [rewrite Hca; pose proof (N.div_mod i (span l)); lia|].
    split; [auto|].
    assert (wf l c) as Hwc.
    { destruct Hcase as [(_ & -> & _)|[_ Hfc]]; [now apply reg_wf|now apply full_wf]. }
    split; [auto|].
    cbn [Rrb.index]. rewrite land_index. split; [rewrite Ha, Hla; reflexivity|].
    split.
    2:{ intros _. rewrite Hla. split; [auto|]. split; [auto|]. intros Hb'.
        destruct Hcase as [(? & _)|[_ ?]]; [easy|auto]. }
    assert (addr l (PReg c s) idx (i mod span l)) as Had.
    { cbn. now rewrite <- mod_span_S, Ha. }
    cbn [Rrb.towards inner_of]. rewrite (count_ok _ _ _ (ok_reg (S l) _ _ Hw Hr Hs E)).
    cbn [rbind ncount]. rewrite Ek, rnthN_app by auto. cbn [rbind].
    rewrite lenN_app, lenN_cons.
    destruct (N.eqb_spec (lenN a + 1) (lenN a + (lenN b + 1))) as [Hlast|Hlast].
    + destruct Hcase as [(-> & -> & ->)|[Hb' _]].
      2:{ apply lenN_pos in Hb'. lia. }
      unfold mk_reg. destruct (N.eqb_spec s 0); [lia|]. cbn [rbind].
      exists (PReg last s), idx. split; [reflexivity|]. split; [|auto].
      constructor; auto; [now apply reg_not_rel with l|].
      rewrite <- mod_span_S.
      replace ((s - 1) mod span (S l)) with (lenN init * span l + nsize last - 1) by lia.
      rewrite last_mod by lia. lia.
    + exists (PFull c), idx. split; [reflexivity|]. split; [|auto].
      constructor. destruct Hcase as [(-> & _)|[_ ?]]; [rewrite lenN_nil in Hlast; lia|auto].
  - (* regular sub *)
    destruct (nonrel_inv _ _ Hw Hr) as (init & last & -> & Hfi & Hrl & Hl & Hn & Hb).
    destruct (reg_child l init last i) as (a & c & b & Ek & Hla & Hfa & Hca & Hj & Hcase);
      auto; [lia|].
    exists a, c, b, (i mod span l). cbn [kids].
    split; [auto|]. split; [rewrite Hca; pose proof (N.div_mod i (span l)); lia|].
    split; [auto|].
    assert (wf l c) as Hwc.
    { destruct Hcase as [(_ & -> & _)|[_ Hfc]]; [now apply reg_wf|now apply full_wf]. }
    split; [auto|].
    cbn [Rrb.index]. rewrite land_index. split; [rewrite Ha, Hla; reflexivity|].
    split.
    2:{ intros _. rewrite Hla. split; [auto|]. split; [auto|]. intros Hb'.
        destruct Hcase as [(? & _)|[_ ?]]; [easy|auto]. }
    assert (addr l (PReg c s) idx (i mod span l)) as Had.
    { cbn. now rewrite <- mod_span_S, Ha. }
    cbn [Rrb.towards inner_of]. rewrite (count_ok _ _ _ (ok_sub (S l) _ _ Hw Hr E)).
    cbn [rbind ncount]. rewrite Ek, rnthN_app by auto. cbn [rbind].
    rewrite lenN_app, lenN_cons.
    destruct (N.eqb_spec (lenN a + 1) (lenN a + (lenN b + 1))) as [Hlast|Hlast].
    + destruct Hcase as [(-> & -> & ->)|[Hb' _]].
      2:{ apply lenN_pos in Hb'. lia. }
      unfold mk_reg. destruct (N.eqb_spec s 0); [lia|]. cbn [rbind].
      exists (PReg last s), idx. split; [reflexivity|]. split; [|auto].
      constructor; auto; [now apply reg_not_rel with l|lia|].
      rewrite E, Hn. rewrite last_mod by lia. lia.
    + exists (PFull c), idx. split; [reflexivity|]. split; [|auto].
      constructor. destruct Hcase as [(-> & _)|[_ ?]]; [rewrite lenN_nil in Hlast; lia|auto].
  - (* relaxed *)
    subst idx. pose proof Hw as (Hl & Hc & Hsz).
    rewrite nsize_inner in Hi. fold (csize cs) in Hi.
    destruct (find_child cs i Hi) as (a & c & b & j & -> & Ei & Hj).
    exists a, c, b, j. cbn [kids]. split; [auto|]. split; [auto|]. split; [auto|].
    apply Forall_app in Hc. destruct Hc as [Hca Hcb]. inversion Hcb; subst x l0.
    split; [auto|].
    assert (i / span l <= lenN a) as Ho.
    { apply N.lt_succ_r, N.div_lt_upper_bound; [lia|].
      pose proof (wf_csize _ _ _ _ Hca). pose proof (wf_size B BL l c ltac:(auto)). lia. }
    cbn [Rrb.index]. rewrite shiftr_span. split; [subst sz i; now apply scan_table|].
    split; [|easy].
    cbn [Rrb.towards inner_of rbind].
    assert ((if lenN a =? 0 then Ok 0 else rnthN sz (lenN a - 1)) = Ok (csize a)) as ->.
    { destruct (N.eqb_spec (lenN a) 0) as [Z|Z]; [apply lenN_0 in Z; now subst a|].
      destruct a as [|d a] using rev_ind; [easy|]. clear IHa.
      subst sz. rewrite <- app_assoc. cbn [app]. rewrite map_app. cbn [map].
      rewrite rnth_sums; [|rewrite lenN_map, lenN_app; cbn; lia].
      rewrite csize_snoc. unfold csize. f_equal; lia. }
    cbn [rbind]. rewrite rnthN_app by auto. cbn [rbind].
    assert (rnthN sz (lenN a) = Ok (csize a + nsize c)) as ->.
    { subst sz. rewrite map_app. cbn [map]. rewrite rnth_sums by apply lenN_map.
      unfold csize. f_equal. }
    cbn [rbind]. replace (csize a + nsize c - csize a) with (nsize c) by lia.
    destruct (child_pos_ok l c) as (q & Eq & Hq & _); [auto|].
    rewrite Eq. cbn [rbind]. exists q, (i - csize a). split; [reflexivity|].
    split; [auto|]. replace (i - csize a) with j by lia. eapply addr_refl; eauto.
Qed.

Lemma leaf_index p n idx i : pos_ok O p n -> addr O p idx i -> i < nsize n ->
  exists xs, n = Leaf xs /\ index O p idx = Ok i /\ i < lenN xs.
Proof.
  intros Hp Ha Hi. destruct (wf_leaf _ (pos_ok_wf _ _ _ Hp)) as (xs & -> & Hx).
  exists xs. split; [auto|]. split; [|exact Hi].
  cbn [Rrb.index]. rewrite land_leaf.
  destruct Hp; cbn in Ha; try (now rewrite Ha).
Qed.

End Pos.
