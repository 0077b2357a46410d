(** The loops over children of positions, for any visitor: a turn that keeps an invariant is
    repeated. *)
From Coq Require Import List NArith Arith Bool Lia ZifyN ZifyNat ZifyBool.
From Verif Require Import Common NList Rrb RrbInv RrbPos RrbOps RrbSlice RrbMerge GcConcat GcPlan GcRep
  GcAdd GcLeaf GcInner GcVisit.
Import ListNotations.
Local Open Scope N_scope.

Set Default Goal Selector "!".

Lemma range_nil i j : j <= i -> range i j = [].
Proof. intros H. unfold range. replace (N.to_nat (j - i)) with O by lia. reflexivity. Qed.
Lemma range_cons i j : i < j -> range i j = i :: range (i + 1) j.
Proof.
  intros H. unfold range. replace (N.to_nat (j - i)) with (S (N.to_nat (j - (i + 1)))) by lia.
  cbn [seq map]. f_equal; [lia|]. do 2 f_equal. lia.
Qed.

Section Loops.
Variables B BL : N.
Context {T : Type}.
Variable mine : token -> bool.
Notation sh := (sh B BL).
Notation span := (span B BL).
Notation width := (width B).
Notation lwidth := (lwidth BL).
Notation heap := (gheap T).
Notation rep := (@rep B BL T mine).
Notation wf := (@wf T B BL).
Notation full := (@full T B BL).
Notation gsrc := (@gsrc B BL T mine).
Notation nil_node := (Leaf [] : node T).
Context {S : Type}.
Variable V : S -> gpos -> G T S.
Variable cl : nat.

(** ** Children of a node *)
Section Container.
Variables (a : nat) (ro : option nat) (pre0 : list (node T)).
Variable Inv : list (node T) -> list (node T) -> S -> heap -> Prop.

Definition turns : Prop := forall vis n rest s h, Inv vis (n :: rest) s h ->
  exists c F, gkid a (lenN (pre0 ++ vis)) h = Ok (c, h) /\ rep h cl c n F /\ wf cl n /\
    (forall r, ro = Some r -> gsize r (lenN (pre0 ++ vis)) h = Ok (csize (pre0 ++ vis) + nsize n, h)) /\
    forall g, gsrc h cl g n F -> exists s' h', V s g h = Ok (s', h') /\ Inv (vis ++ [n]) rest s' h' /\
      forall r, ro = Some r -> gsize r (lenN (pre0 ++ vis)) h' = Ok (csize (pre0 ++ vis) + nsize n, h').
Hypothesis Hturn : turns.

Lemma each_full ns : forall vis rest s h, Forall (full cl) ns -> Inv vis (ns ++ rest) s h ->
  exists s' h', geach_full V a (range (lenN (pre0 ++ vis)) (lenN (pre0 ++ vis) + lenN ns)) s h = Ok (s', h') /\
    Inv (vis ++ ns) rest s' h'.
Proof.
  induction ns as [|n ns IH]; intros vis rest s h Hf Hi.
  - rewrite range_nil by (rewrite lenN_nil; lia). exists s, h. rewrite app_nil_r. split; [reflexivity|exact Hi].
  - inversion Hf as [|? ? Hn Hns]; subst. cbn [app] in Hi.
    destruct (Hturn _ _ _ _ _ Hi) as (c & F & Ek & Hr & Hw & _ & Hv).
    destruct (Hv (GFull c) (gsrc_full _ _ _ _ _ _ _ _ Hr Hn)) as (s1 & h1 & Ev & Hi1 & _).
    destruct (IH _ _ _ _ Hns Hi1) as (s2 & h2 & E2 & Hi2).
    exists s2, h2. rewrite <- app_assoc in Hi2. split; [|exact Hi2].
    rewrite range_cons by (rewrite lenN_cons; lia). cbn [geach_full]. run Ek. run Ev.
    rewrite <- E2. f_equal. f_equal; rewrite ?app_assoc, ?lenN_snoc, ?lenN_cons; lia.
Qed.

Lemma rel_turn r vis n rest s h : ro = Some r -> Inv vis (n :: rest) s h ->
  exists s' h', grel_turn B BL V cl a r (lenN (pre0 ++ vis)) (csize (pre0 ++ vis)) s h =
      Ok ((s', csize (pre0 ++ vis ++ [n])), h') /\ Inv (vis ++ [n]) rest s' h'.
Proof.
  intros Er Hi. destruct (Hturn _ _ _ _ _ Hi) as (c & F & Ek & Hr & Hw & Hz & Hv).
  destruct (gchild_ok _ _ _ _ _ _ _ _ Hr Hw) as (g & Eg & Hg & _).
  destruct (Hv g Hg) as (s1 & h1 & Ev & Hi1 & Hz1). exists s1, h1. split; [|exact Hi1].
  unfold grel_turn. run Ek. run (Hz r Er).
  replace (csize (pre0 ++ vis) + nsize n - csize (pre0 ++ vis)) with (nsize n) by lia.
  run Eg. run Ev. run (Hz1 r Er). unfold gret. do 3 f_equal.
  rewrite (app_assoc pre0), (csize_app (pre0 ++ vis) [n]), csize_cons, csize_nil. lia.
Qed.

Lemma rel_left r ns : ro = Some r -> forall vis rest s h, Inv vis (ns ++ rest) s h ->
  exists s' h', grel_left B BL V cl a r (range (lenN (pre0 ++ vis)) (lenN (pre0 ++ vis) + lenN ns))
      (csize (pre0 ++ vis)) s h = Ok (s', h') /\ Inv (vis ++ ns) rest s' h'.
Proof.
  intros Er. induction ns as [|n ns IH]; intros vis rest s h Hi.
  - rewrite range_nil by (rewrite lenN_nil; lia). exists s, h. rewrite app_nil_r. split; [reflexivity|exact Hi].
  - cbn [app] in Hi. destruct (rel_turn r vis n _ s h Er Hi) as (s1 & h1 & E1 & Hi1).
    destruct (IH _ _ _ _ Hi1) as (s2 & h2 & E2 & Hi2).
    exists s2, h2. rewrite <- app_assoc in Hi2. split; [|exact Hi2].
    rewrite range_cons by (rewrite lenN_cons; lia). cbn [grel_left]. run E1.
    rewrite <- E2. f_equal. f_equal; rewrite ?app_assoc, ?lenN_snoc, ?lenN_cons; lia.
Qed.

Lemma rel_right r : ro = Some r ->
  (forall vis rest s h, Inv vis rest s h -> gcount r h = Ok (lenN (pre0 ++ vis ++ rest), h)) ->
  forall fuel vis rest s h, (length rest <= fuel)%nat -> Inv vis rest s h ->
  exists s' h', grel_right B BL V fuel cl a r (lenN (pre0 ++ vis)) (csize (pre0 ++ vis)) s h = Ok (s', h') /\
    Inv (vis ++ rest) [] s' h'.
Proof.
  intros Er Hc. induction fuel as [|f IH]; intros vis rest s h Hl Hi.
  - destruct rest; [|cbn in Hl; lia]. exists s, h. rewrite app_nil_r. split; [|exact Hi].
    cbn [grel_right]. run (Hc _ _ _ _ Hi). rewrite app_nil_r.
    destruct (N.ltb_spec (lenN (pre0 ++ vis)) (lenN (pre0 ++ vis))); [lia|reflexivity].
  - cbn [grel_right]. run (Hc _ _ _ _ Hi). destruct rest as [|n rest].
    + exists s, h. rewrite !app_nil_r. split; [|exact Hi].
      destruct (N.ltb_spec (lenN (pre0 ++ vis)) (lenN (pre0 ++ vis))); [lia|reflexivity].
    + destruct (N.ltb_spec (lenN (pre0 ++ vis)) (lenN (pre0 ++ vis ++ n :: rest))) as [_|Z].
      2: { rewrite app_assoc, lenN_app, lenN_cons in Z. lia. }
      destruct (rel_turn r vis n _ s h Er Hi) as (s1 & h1 & E1 & Hi1).
      destruct (IH (vis ++ [n]) rest s1 h1) as (s2 & h2 & E2 & Hi2); [cbn in Hl; lia|exact Hi1|].
      exists s2, h2. rewrite <- app_assoc in Hi2. split; [|exact Hi2]. run E1.
      rewrite <- E2. f_equal. rewrite app_assoc, lenN_snoc. lia.
Qed.
End Container.

(** The position [p] of a node [n] at [a] with the table [ro]. *)
Definition gcont (p : gpos) (n : node T) (a : nat) (ro : option nat) : Prop :=
  wf (Datatypes.S cl) n /\
  match p with
  | GFull x => x = a /\ ro = None /\ full (Datatypes.S cl) n
  | GSub x z => x = a /\ ro = None /\ z = nsize n /\ is_rel n = false
  | GRel x r => x = a /\ ro = Some r /\ is_rel n = true
  | _ => False
  end.

Lemma sub_count n : wf (Datatypes.S cl) n -> is_rel n = false ->
  count B BL (Datatypes.S cl) (PSub nil_node (nsize n)) = Ok (ncount n).
Proof.
  intros Hw Hn. assert (pos_ok B BL (Datatypes.S cl) (PSub n (nsize n)) n) as Hp by now constructor.
  exact (count_ok _ _ _ _ _ Hp).
Qed.
Lemma kids_count n : wf (Datatypes.S cl) n -> ncount n = lenN (kids n).
Proof. now destruct n. Qed.

Lemma left_loop p n a ro Inv ls x s h : gcont p n a ro -> match p with GFull _ => False | _ => True end ->
  kids n = ls ++ [x] -> turns a ro [] Inv ->
  (forall r, ro = Some r -> gcount r h = Ok (lenN (kids n), h)) -> Inv [] ls s h ->
  exists s' h', gleft_subs B BL V cl p s h = Ok (s', h') /\ Inv ls [] s' h'.
Proof.
  intros [Hw Hp] Hnf Ek Ht Hc Hi. rewrite <- (app_nil_r ls) in Hi.
  assert (lenN (kids n) = lenN ls + 1) as El by (rewrite Ek; apply lenN_snoc).
  destruct p as [y|y z|y z|y r|y z|]; cbn [gleft_subs]; try easy.
  - destruct Hp as (-> & -> & -> & Hn). run (glift_ok _ _ h (sub_count n Hw Hn)).
    destruct (nonrel_split B BL cl n ls x [] Hw Hn Ek) as (Hf & _).
    destruct (each_full a None [] Inv Ht ls [] [] s h Hf Hi) as (s' & h' & E & Hi'). exists s', h'. split; [|exact Hi'].
    rewrite (kids_count n Hw), El. replace (lenN ls + 1 - 1) with (0 + lenN ls) by lia. exact E.
  - destruct Hp as (-> & -> & Hn). run (Hc r eq_refl). destruct (N.eqb_spec (lenN (kids n)) 0); [lia|].
    destruct (rel_left a (Some r) [] Inv Ht r ls eq_refl [] [] s h Hi) as (s' & h' & E & Hi'). exists s', h'. split; [|exact Hi'].
    rewrite El. replace (lenN ls + 1 - 1) with (0 + lenN ls) by lia. exact E.
Qed.

Lemma right_loop p n a ro Inv x rs s h : gcont p n a ro -> kids n = x :: rs -> turns a ro [x] Inv ->
  sh cl < 32 -> nsize n <= 2 ^ 32 ->
  (forall r, ro = Some r -> gsize r 0 h = Ok (nsize x, h)) ->
  (forall vis rest s h r, ro = Some r -> Inv vis rest s h -> gcount r h = Ok (lenN (x :: vis ++ rest), h)) ->
  Inv [] rs s h ->
  exists s' h', gright_subs B BL V cl p s h = Ok (s', h') /\ Inv rs [] s' h'.
Proof.
  intros [Hw Hp] Ek Ht Hsh H32 Hz Hc Hi.
  assert (lenN (kids n) = 1 + lenN rs) as El by (rewrite Ek, lenN_cons; lia).
  destruct p as [y|y z|y z|y r|y z|]; cbn [gright_subs]; try easy.
  - destruct Hp as (-> & -> & Hf). destruct n as [|[] cs]; cbn in Hf; try easy. cbn [kids] in *. subst cs. destruct Hf as [Hl Hf].
    inversion Hf; subst. rewrite <- (app_nil_r rs) in Hi.
    destruct (each_full a None [x] Inv Ht rs [] [] s h ltac:(auto) Hi) as (s' & h' & E & Hi'). exists s', h'. split; [|exact Hi'].
    rewrite <- Hl, lenN_cons. rewrite (N.add_comm (lenN rs) 1). exact E.
  - destruct Hp as (-> & -> & -> & Hn). run (glift_ok _ _ h (sub_count n Hw Hn)).
    rewrite (kids_count n Hw), El. destruct (N.ltb_spec 1 (1 + lenN rs)) as [Hb|Hb].
    2: { assert (rs = []) as -> by (apply lenN_0; lia). exists s, h. auto. }
    destruct rs as [|y b] using rev_ind; [rewrite lenN_nil in Hb; lia|]. clear IHb.
    destruct (nonrel_split B BL cl n (x :: b) y [] Hw Hn Ek) as (Hfa & Hry & _ & _ & Hca & Hns & _).
    pose proof (reg_size_bounds _ _ _ _ Hry) as Hby. rewrite (@csize_nil T) in Hns.
    rewrite lenN_snoc in *. replace (1 + (lenN b + 1) - 1) with (lenN (x :: b)) by (rewrite lenN_cons; lia).
    assert (shl32 (lenN (x :: b)) (sh cl) = Ok (csize (x :: b))) as Es.
    { rewrite shl32_ok; [|auto|].
      - fold (span cl). now rewrite <- Hca.
      - fold (span cl). rewrite <- Hca. lia. }
    run (glift_ok _ _ h Es). inversion Hfa; subst.
    destruct (each_full a None [x] Inv Ht b [] [y] s h ltac:(auto) Hi) as (s' & h' & E & Hi').
    cbn [app] in E. replace (lenN [x] + lenN b) with (lenN (x :: b)) in E by (rewrite !lenN_cons, lenN_nil; lia).
    change (lenN [x]) with 1 in E. run E. cbn [app] in Hi'.
    destruct (Ht _ _ _ _ _ Hi') as (c & F & Eck & Hr & Hwy & _ & Hv). cbn [app] in Eck. run Eck.
    replace (nsize n - csize (x :: b)) with (nsize y) by lia.
    assert (is_rel y = false) as Hry' by (eapply reg_not_rel; eauto).
    destruct (gsrc_sub _ _ _ _ _ _ _ _ Hr Hwy Hry') as [Eg Hg]. run Eg.
    destruct (Hv _ Hg) as (s2 & h2 & E2 & Hi2 & _). eauto.
  - destruct Hp as (-> & -> & Hn). run (Hc [] rs s h r eq_refl Hi).
    rewrite lenN_cons. destruct (N.eqb_spec (lenN ([] ++ rs) + 1) 0); [lia|].
    run (Hz r eq_refl).
    destruct (rel_right a (Some r) [x] Inv Ht r eq_refl (fun vis rest s h => Hc vis rest s h r eq_refl)
      (N.to_nat width) [] rs s h) as (s' & h' & E & Hi').
    + pose proof (wf_count_le _ _ _ _ Hw) as Hle. rewrite El in Hle. unfold lenN in Hle. lia.
    + exact Hi.
    + exists s', h'. split; [|exact Hi']. rewrite <- E. cbn [app]. f_equal. rewrite csize_cons, csize_nil. lia.
Qed.

(** ** Nodes of the centre *)
Section Center.
Variable Inv : list (node T) -> list (node T) -> list nat -> S -> heap -> Prop.
Definition cturns : Prop := forall vis n rest cs s h, Inv vis (n :: rest) cs s h ->
  exists c cs' F, cs = c :: cs' /\ rep h cl c n F /\ wf cl n /\
    forall g, gsrc h cl g n F -> exists s' h', V s g h = Ok (s', h') /\ Inv (vis ++ [n]) rest cs' s' h'.
Hypothesis Hturn : cturns.
Hypothesis Hnil : forall vis cs s h, Inv vis [] cs s h -> cs = [].

Lemma leaf_loop ns : cl = O -> forall vis cs s h p, Inv vis ns cs s h ->
  exists s' h', gleaf_subs B BL V cs (sums p (map nsize ns)) p s h = Ok (s', h') /\ Inv (vis ++ ns) [] [] s' h'.
Proof.
  intros Hcl. induction ns as [|n ns IH]; intros vis cs s h p Hi.
  - assert (cs = []) as -> by (eapply Hnil; eauto). exists s, h. rewrite app_nil_r. auto.
  - destruct (Hturn _ _ _ _ _ _ Hi) as (c & cs' & F & -> & Hr & Hw & Hv).
    cbn [map sums gleaf_subs]. replace (p + nsize n - p) with (nsize n) by lia.
    rewrite Hcl in *. assert (is_rel n = false) as Hn by now destruct n.
    destruct (gsrc_sub _ _ _ _ _ _ _ _ Hr Hw Hn) as [Eg Hg]. run Eg.
    destruct (Hv _ Hg) as (s1 & h1 & E1 & Hi1). run E1.
    destruct (IH _ _ _ _ (p + nsize n) Hi1) as (s2 & h2 & E2 & Hi2). exists s2, h2. rewrite <- app_assoc in Hi2. auto.
Qed.
Lemma inner_loop l ns : cl = Datatypes.S l -> Forall (fun n => is_rel n = true) ns -> forall vis cs s h, Inv vis ns cs s h ->
  exists s' h', ginner_subs V cs s h = Ok (s', h') /\ Inv (vis ++ ns) [] [] s' h'.
Proof.
  intros Hcl. induction 1 as [|n ns Hn Hns IH]; intros vis cs s h Hi.
  - assert (cs = []) as -> by (eapply Hnil; eauto). exists s, h. rewrite app_nil_r. auto.
  - destruct (Hturn _ _ _ _ _ _ Hi) as (c & cs' & F & -> & Hr & Hw & Hv).
    cbn [ginner_subs]. destruct n as [|[sz|] ks]; cbn in Hn; try easy. rewrite Hcl in Hr, Hw, Hv.
    destruct (gsrc_rel _ _ _ _ _ _ _ _ _ Hr Hw) as (r & E1 & _ & _ & _ & Hg). run E1.
    destruct (Hv _ Hg) as (s1 & h1 & E2 & Hi1). run E2.
    destruct (IH _ _ _ _ Hi1) as (s2 & h2 & E3 & Hi2). exists s2, h2. rewrite <- app_assoc in Hi2. auto.
Qed.
Lemma center_loop c ns s h : gc_lv c = cl -> gc_sizes c = sums 0 (map nsize ns) ->
  (cl <> O -> Forall (fun n => is_rel n = true) ns) -> Inv [] ns (gc_nodes c) s h ->
  exists s' h', gcenter_subs B BL V c s h = Ok (s', h') /\ Inv ns [] [] s' h'.
Proof.
  intros Hl Hz Hr Hi. unfold gcenter_subs. rewrite Hl, Hz.
  assert (cl = O \/ exists l, cl = Datatypes.S l) as [E|[l E]] by (destruct cl; eauto).
  - rewrite E. now apply (leaf_loop ns E []).
  - assert (Forall (fun n => is_rel n = true) ns) as Hr' by (apply Hr; rewrite E; easy).
    rewrite E. now apply (inner_loop l ns E Hr' []).
Qed.
End Center.
End Loops.
