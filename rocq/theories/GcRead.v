(** Blocks that represent a tree (GcRep) are read as its elements (GcSpec). *)
From Coq Require Import List NArith Arith Bool Lia ZifyN ZifyNat ZifyBool.
From Verif Require Import Common NList Rrb RrbInv GcConcat GcSpec GcRep GcTree.
Import ListNotations.
Local Open Scope N_scope.

Set Default Goal Selector "!".

Lemma firsts_pre {A} (xs : list A) sl n : pre xs sl -> n = length xs -> firsts n sl = Some xs.
Proof.
  intros (r & ->) ->. induction xs as [|x xs IH]; cbn; [destruct r; reflexivity|]. now rewrite IH.
Qed.
Lemma firsts_preN {A} (xs : list A) sl n : pre xs sl -> n = lenN xs -> firsts (N.to_nat n) sl = Some xs.
Proof. intros H ->. apply firsts_pre; [auto|]. unfold lenN. lia. Qed.

Section Read.
Variables B BL : N.
Context {T : Type}.
Variable mine : token -> bool.
Hypothesis HB1 : 1 <= B.
Notation rep := (rep (T := T) B BL mine).
Notation gtrep := (gtrep (T := T) B BL mine).
Notation contents := (contents (T := T) B BL).
Notation span := (span B BL).
Notation full := (full B BL).
Notation reg := (reg B BL).
Notation wf := (wf B BL).

Lemma even_ok (rd : nat -> N -> option (list T)) l init cs lst Fs (R : nat -> node T -> list nat -> Prop) :
  all3 R cs (init ++ [lst]) Fs ->
  (forall c n F, In n (init ++ [lst]) -> R c n F -> rd c (nsize n) = Some (elems n)) ->
  Forall (full l) init -> nsize lst <= span l ->
  even_kids rd (span l) (csize (init ++ [lst])) cs = Some (flat_map elems (init ++ [lst])).
Proof.
  revert cs Fs. induction init as [|n init IH]; intros cs Fs Hk Hrd Hf Hl; inversion Hk as [|c n' F cs' ns' Fs' Hr Hk']; subst.
  - inversion Hk'; subst. cbn [even_kids app flat_map]. rewrite csize_cons, csize_nil.
    replace (N.min (span l) (nsize lst + 0)) with (nsize lst) by lia.
    rewrite (Hrd c lst F); [reflexivity|now left|auto].
  - inversion Hf as [|? ? Hn Hf']; subst. cbn [even_kids app flat_map]. rewrite csize_cons.
    pose proof (full_size B BL _ _ Hn) as En.
    replace (N.min (span l) _) with (nsize n) by lia.
    replace (nsize n + csize (init ++ [lst]) - span l) with (csize (init ++ [lst])) by lia.
    rewrite (Hrd c n F); [|now left|auto].
    rewrite (IH cs' Fs'); auto. intros; eapply Hrd; eauto. now right.
Qed.
Lemma sized_ok (rd : nat -> N -> option (list T)) ns cs Fs p (R : nat -> node T -> list nat -> Prop) :
  all3 R cs ns Fs ->
  (forall c n F, In n ns -> R c n F -> rd c (nsize n) = Some (elems n)) ->
  sized_kids rd p (sums p (map nsize ns)) cs = Some (flat_map elems ns).
Proof.
  intros Hk. revert p. induction Hk as [|c n F cs ns Fs Hr Hk IH]; intros p Hrd; [reflexivity|].
  cbn [map flat_map]. rewrite sums_cons. cbn [sized_kids].
  replace (p + nsize n - p) with (nsize n) by lia.
  rewrite (Hrd c n F); [|now left|auto]. rewrite IH; [reflexivity|]. intros; eapply Hrd; eauto. now right.
Qed.
Lemma last_sums p (ns : list N) : ns <> [] -> last (sums p ns) 0 = p + sumN ns.
Proof.
  revert p. induction ns as [|n ns IH]; intros p H; [easy|]. rewrite sums_cons, sumN_cons.
  destruct ns as [|m ns]; [cbn; lia|]. specialize (IH (p + n)). rewrite sums_cons in IH |- *.
  change (last (p + n :: p + n + m :: sums (p + n + m) ns) 0) with (last (p + n + m :: sums (p + n + m) ns) 0).
  rewrite IH by easy. lia.
Qed.
Lemma sh_pow l : 2 ^ (BL + B * N.of_nat l) = span l.
Proof. unfold RrbInv.span, Rrb.sh. f_equal. lia. Qed.

Lemma contents_ok h : forall v a n F, rep h v a n F -> wf v n -> contents h v a (nsize n) = Some (elems n).
Proof.
  induction v as [|l IH]; intros a n F Hr Hw; destruct n as [xs|[sz|] ns]; try easy; cbn [GcRep.rep] in Hr.
  - destruct Hr as (o & sl & Ha & Hp & _). cbn [GcSpec.contents]. rewrite Ha. now apply firsts_preN.
  - destruct Hr as (o & r & ks & cs & Fr & Fs & Ha & Hp & _ & Ht & Hk & _).
    destruct r as [r|]; cbn [trep] in Ht; [|easy]. destruct Ht as (o' & sl & Hb & Hq & _).
    destruct Hw as ([Hpos _] & Hws & ->). cbn [GcSpec.contents]. rewrite Ha, Hb.
    rewrite lenN_sums, lenN_map in *.
    rewrite (firsts_preN _ _ _ Hq) by now rewrite lenN_sums, lenN_map.
    rewrite (firsts_preN _ _ _ Hp) by (symmetry; apply (all3_len _ _ _ _ Hk)).
    rewrite last_sums by (destruct ns; [easy|cbn; easy]).
    rewrite N.add_0_l, <- (nsize_inner None ns). change (nsize (Inner (Some (sums 0 (map nsize ns))) ns)) with (nsize (Inner None ns)).
    rewrite N.eqb_refl. apply (sized_ok _ _ _ _ _ _ Hk). intros c n F0 Hn Hc. apply (IH c n F0 Hc).
    rewrite Forall_forall in Hws. auto.
  - destruct Hr as (o & r & ks & cs & Fr & Fs & Ha & Hp & _ & Ht & Hk & _).
    destruct r as [r|]; cbn [trep] in Ht; [easy|]. destruct Hw as (init & lst & -> & Hf & Hl & Hlen).
    cbn [GcSpec.contents]. rewrite Ha, sh_pow. pose proof (reg_size_bounds _ _ _ _ Hl) as Bl. pose proof (span_pos B BL l) as Ps.
    rewrite nsize_inner. fold (csize (init ++ [lst])).
    rewrite (firsts_preN cs ks).
    + apply (even_ok _ l _ _ _ _ _ Hk); auto; [|lia]. intros c n F0 Hn Hc. apply (IH c n F0 Hc).
      apply in_app_or in Hn as [Hn|[<-|[]]]; [|now apply reg_wf]. rewrite Forall_forall in Hf. apply full_wf; auto.
    + exact Hp.
    + destruct (all3_len _ _ _ _ Hk) as [-> _]. rewrite csize_snoc, (full_csize _ _ _ _ Hf), lenN_app, lenN_cons, lenN_nil.
      symmetry. apply N.div_unique with (nsize lst - 1); nia.
Qed.

Theorem reads_ok h x t F : gtrep h x t F -> inv B BL t -> reads B BL h x = Some (to_list t).
Proof.
  intros (E1 & E2 & Fr & Ft & Hr & Ht & _) Hi. pose proof Hi as (xs & Et & Hs & Hle & Hpos & Hroot).
  assert (in_tree BL h x = Some (nsize (root t))) as Ei.
  { unfold in_tree. destruct (root t) as [|[sz|] ns] eqn:Er; [easy| |]; cbn [GcRep.rep] in Hr;
    destruct Hr as (o & r & ks & cs & Fr0 & Fs & Ha & Hp & _ & Htr & Hk & _); rewrite Ha; destruct r as [r|]; cbn [trep] in Htr; try easy.
    - destruct Hroot as [[? _]|Hw]; [easy|]. destruct Htr as (o' & sl & Hb & Hq & _). rewrite Hb.
      rewrite (firsts_preN _ _ _ Hq) by reflexivity. destruct Hw as ([Hp0 _] & Hws & ->).
      rewrite last_sums by (destruct ns; [easy|cbn; easy]). now rewrite nsize_inner.
    - f_equal. rewrite E1, Hs. pose proof (pow2_pos BL) as Pp.
      assert (nsize (Inner None ns) mod 2 ^ BL = 0) as Hm.
      { destruct Hroot as [[[= ->] _]|Hw]; [cbn; now rewrite N.mod_0_l by lia|]. now apply (reg_dvd B BL (S (lv t))). }
      apply N.div_exact in Hm; [|lia]. set (q := nsize (Inner None ns) / 2 ^ BL) in *. clearbody q. rewrite Hm in *.
      destruct (N.eq_dec (lenN xs) 0) as [Z|Z].
      + assert (size t = 0) as Z0 by lia. assert (q = 0) as -> by nia.
        rewrite N.mul_0_r, Z. change (0 + 0 - 1) with 0. rewrite N.div_0_l by lia. apply N.mul_0_r.
      + f_equal. symmetry. apply N.div_unique with (lenN xs - 1); unfold Rrb.lwidth in Hle; lia. }
  unfold reads. rewrite Ei, E2, E1, Hs. replace (nsize (root t) + lenN xs - nsize (root t)) with (lenN xs) by lia.
  assert (contents h 0 (gt_tail x) (lenN xs) = Some xs) as ->.
  { rewrite Et in Ht. destruct Ht as (o & sl & Ha & Hp & _). cbn. rewrite Ha. now apply firsts_preN. }
  assert (contents h (S (lv t)) (gt_root x) (nsize (root t)) = Some (elems (root t))) as ->.
  { destruct Hroot as [[Ez _]|Hw]; [|eapply contents_ok; eauto]. rewrite Ez in *. cbn [GcRep.rep] in Hr.
    destruct Hr as (o & r & ks & cs & Fr0 & Fs & Ha & Hp & _ & Htr & Hk & _). destruct r as [r|]; cbn [trep] in Htr; [easy|].
    cbn [GcSpec.contents]. rewrite Ha. change (nsize (Inner None [])) with 0. pose proof (pow2_pos (BL + B * N.of_nat (lv t))).
    rewrite N.div_small by lia. cbn. destruct ks; reflexivity. }
  cbn. unfold to_list. now rewrite Et.
Qed.
End Read.
