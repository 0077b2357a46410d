(** C58, C59: versions of dvektor and its iterators. *)
From Coq Require Import List Arith Bool Lia.
From Verif Require Import Common DvekSpec Dvek DvekProofs.
Import ListNotations.
Set Default Goal Selector "!".

(** After the program, all versions, also those that others were made from, have the elements of
    the specification. *)
Definition values_ok {T} (B maxd : nat) (dflt : T) (os : list (dop T)) : Prop :=
  let vs := dspecs [([], 0)] os in
  exists ss h, drun B maxd dflt [empty maxd] os [] = Ok (ss, h) /\ length ss = length vs /\
    forall v s, nth_error ss v = Some s -> let xs := fst (ver vs v) in
      size s = length xs /\ forall i x, nth_error xs i = Some x -> get B s i h = Ok x.

(** The property would be: for all programs that keep the preconditions, [values_ok].  Missing here:
    the programs that start a block of a version with more than 2^(3B) elements that was last
    changed in another block than the last. *)
Theorem C58_values_partial {T} (B maxd : nat) (dflt : T) (os : list (dop T)) :
  0 < B -> 0 < maxd -> dvalids B maxd [([], 0)] os -> calms B [([], 0)] os -> values_ok B maxd dflt os.
Proof.
  intros HB Hm Hv Hc. destruct (drun_ok B maxd dflt HB os [] [empty maxd] [([], 0)] Hm (dinvs_0 B maxd) Hv Hc)
    as (ss & h & Er & Hl & Hi). exists ss, h. split; [exact Er|]. split; [exact Hl|]. intros v s Hs. cbv zeta.
  destruct (Hi v s Hs) as [Hsz [E|F]].
  - rewrite E in *. split; [exact Hsz|]. now intros [|i] x.
  - split; [exact Hsz|]. intros i x Hx. apply get_reads. exact (df_reads _ _ _ _ _ _ F i x Hx).
Qed.
Print Assumptions C58_values_partial.

(** [n] elements 0, 1, .. pushed one after the other onto version [v], versions [v + 1] .. *)
Definition pushes (v n : nat) : list (dop nat) := map (fun i => DPush (v + i) i) (seq 0 n).

(** 68 elements, an update of the first, one more element: blocks of 4, in a vector of depth 4.  The
    elements from 64 on are lost. *)
Definition lost_prog : list (dop nat) := pushes 0 68 ++ [DUpdate 68 0 S; DPush 69 68].
Definition dvalidb {T} (vs : list (version T)) (o : dop T) : bool :=
  match o with
  | DPush v _ => (v <? length vs) && (length (fst (ver vs v)) <? 2 ^ 7)
  | DUpdate v i _ => (v <? length vs) && (i <? length (fst (ver vs v)))
  end.
Fixpoint dvalidsb {T} (vs : list (version T)) (os : list (dop T)) : bool :=
  match os with [] => true | o :: os' => dvalidb vs o && dvalidsb (dspec vs o) os' end.
Lemma dvalidsb_ok {T} B maxd (os : list (dop T)) : 7 <= B * maxd -> forall vs, dvalidsb vs os = true -> dvalids B maxd vs os.
Proof.
  intros Hd. induction os as [|o os IH]; intros vs H; cbn [dvalidsb dvalids] in *; [exact I|].
  apply andb_true_iff in H as [H1 H2]. split; [|auto].
  destruct o; cbn [dvalidb dvalid] in *; apply andb_true_iff in H1 as [Ha Hb]; apply Nat.ltb_lt in Ha, Hb; split; auto.
  eapply Nat.lt_le_trans; [exact Hb|]. apply Nat.pow_le_mono_r; lia.
Qed.
Definition calmb {T} B (vs : list (version T)) (o : dop T) : bool :=
  match o with
  | DPush v _ => let (xs, f) := ver vs v in
      negb (length xs mod 2 ^ B =? 0) || (length xs <=? 2 ^ (B * 3)) || (f / 2 ^ B =? length xs / 2 ^ B - 1)
  | DUpdate _ _ _ => true
  end.
Fixpoint calmsb {T} B (vs : list (version T)) (os : list (dop T)) : bool :=
  match os with [] => true | o :: os' => calmb B vs o && calmsb B (dspec vs o) os' end.
Lemma calmsb_ok {T} B (os : list (dop T)) : forall vs, calmsb B vs os = true -> calms B vs os.
Proof.
  induction os as [|o os IH]; intros vs H; cbn [calmsb calms] in *; [exact I|].
  apply andb_true_iff in H as [H1 H2]. split; [|auto].
  destruct o as [v x|]; cbn [calmb calm] in *; [|exact I]. destruct (ver vs v) as [xs f].
  intros Hm Hl. apply orb_true_iff in H1 as [H1|H1]; [|now apply Nat.eqb_eq in H1].
  apply orb_true_iff in H1 as [H1|H1]; [rewrite Hm in H1; discriminate|]. apply Nat.leb_le in H1. lia.
Qed.

(** The full statement is false: an element of the last version cannot be read. *)
Theorem C58_values_refuted : exists os, dvalids 2 32 [([], 0)] os /\ ~ values_ok 2 32 0 os.
Proof.
  exists lost_prog. split; [apply dvalidsb_ok; [lia|vm_compute; reflexivity]|].
  intros (ss & h & Er & Hl & H).
  assert (X : match drun 2 32 0 [empty 32] lost_prog [] with
              | Ok (ss, h) => match nth_error ss 70 with Some s => get 2 s 65 h = UB | None => False end
              | UB => False end) by (vm_compute; reflexivity).
  rewrite Er in X. destruct (nth_error ss 70) as [s|] eqn:Es; [|contradiction].
  destruct (H 70 s Es) as [_ Hg].
  assert (E : nth_error (fst (ver (dspecs [([], 0)] lost_prog) 70)) 65 = Some 65) by (vm_compute; reflexivity).
  rewrite (Hg 65 65 E) in X. discriminate X.
Qed.
Print Assumptions C58_values_refuted.

(** Updates in the middle of deep versions, a new block after the last one was changed, and an old
    version grown again. *)
Definition calm_prog : list (dop nat) :=
  pushes 0 68 ++ [DUpdate 68 0 S; DUpdate 69 66 S; DPush 70 68; DUpdate 71 17 S; DPush 40 99; DUpdate 73 3 S].
Example C58_nonvacuous : dvalids 2 32 [([], 0)] calm_prog /\ calms 2 [([], 0)] calm_prog /\
  match drun 2 32 0 [empty 32] calm_prog [] with
  | Ok (ss, h) =>
      match nth_error ss 72, nth_error ss 40, nth_error ss 74 with
      | Some s, Some o, Some r => map (fun i => get 2 s i h) [0; 3; 17; 66; 67; 68] = map Ok [1; 3; 18; 67; 67; 68] /\
          map (fun i => get 2 o i h) [0; 3; 17; 39] = map Ok [0; 3; 17; 39] /\ map (fun i => get 2 r i h) [3; 39; 40] = map Ok [4; 39; 99]
      | _, _, _ => False
      end
  | UB => False
  end.
Proof.
  split; [apply dvalidsb_ok; [lia|vm_compute; reflexivity]|]. split; [apply calmsb_ok; vm_compute; reflexivity|].
  vm_compute. auto.
Qed.

(** *** Iterators *)
(** Iterators from begin or end that stay within the range are at the position the moves lead to,
    show the element there, and a loop from begin to end shows all elements. *)
Definition starts {T} (B : nat) (s : impl) (h : dheap T) (at_end : bool) : res (iter * dheap T) :=
  if at_end then end_ B s h else begin B s h.
Definition iterates {T} (B : nat) (s : impl) (h : dheap T) (xs : list T) (at_end : bool) (ms : list imove) : Prop :=
  forall j, ipos (length xs) (if at_end then length xs else 0) ms = Some j ->
    exists t0 h' t, starts B s h at_end = Ok (t0, h') /\ moves B t0 ms h' = Ok t /\ it_i t = j /\
      forall x, nth_error xs j = Some x -> deref_it t h' = Ok x.
(** The property would be: [iterates] for all versions and moves, and [elements] of all versions.
    Missing here: empty versions, and going to the end by ++ or += when the size is a multiple of
    2^B. *)
Theorem C59_iterators_partial {T} (B maxd : nat) (dflt : T) (os : list (dop T)) ss h v s :
  0 < B -> 0 < maxd -> dvalids B maxd [([], 0)] os -> calms B [([], 0)] os ->
  drun B maxd dflt [empty maxd] os [] = Ok (ss, h) -> nth_error ss v = Some s ->
  let xs := fst (ver (dspecs [([], 0)] os) v) in xs <> [] ->
  (forall (at_end : bool) ms, shy B (length xs) (if at_end then length xs else 0) ms -> iterates B s h xs at_end ms) /\
  (length xs mod 2 ^ B <> 0 -> elements B s h = Ok xs).
Proof.
  intros HB Hm Hv Hc Er Hs xs Hne.
  destruct (drun_ok B maxd dflt HB os [] [empty maxd] [([], 0)] Hm (dinvs_0 B maxd) Hv Hc) as (ss' & h' & Er' & Hl & Hi).
  rewrite Er in Er'. injection Er' as <- ->. destruct (Hi v s Hs) as [Hsz [E|F]]; [contradiction|]. fold xs in Hsz, F.
  assert (Hpos : 0 < length xs) by (clear - Hne; destruct xs; [contradiction|cbn; lia]). cbn [app] in *. split.
  - intros at_end ms Hshy j Hj.
    assert (Hst : exists t0 t, starts B s h' at_end = Ok (t0, h' ++ t) /\
       itinv B xs (h' ++ t) (depth s) t0 (if at_end then length xs else 0)).
    { unfold starts. destruct at_end; [exact (end_ok B maxd HB xs Hpos h' s _ Hsz F)|exact (begin_ok B maxd HB xs Hpos h' s _ F)]. }
    destruct Hst as (t0 & t & E0 & I0). pose proof (df_depth _ _ _ _ _ _ F) as Hd. pose proof (df_size _ _ _ _ _ _ F) as Hcap.
    destruct (moves_ok B HB xs Hpos (h' ++ t) (depth s) ms (proj1 Hd) Hcap t0 _ j I0 Hj Hshy) as (t' & Et & I').
    exists t0, (h' ++ t), t'. split; [exact E0|]. split; [exact Et|]. split; [exact (ii_i _ _ _ _ _ _ I')|].
    intros x Hx. exact (deref_ok B HB xs (h' ++ t) (depth s) t' j x (proj1 Hd) I' Hx).
  - intros Hmod. exact (elements_ok B maxd HB xs Hpos h' s _ Hsz F Hmod).
Qed.
Print Assumptions C59_iterators_partial.

(** The full statement is false with the default of five bits: of 32 elements, the last ++ of a loop
    over them is undefined. *)
Theorem C59_full_blocks_refuted : exists os ss h v s, dvalids 5 13 [([], 0)] os /\ calms 5 [([], 0)] os /\
  drun 5 13 0 [empty 13] os [] = Ok (ss, h) /\ nth_error ss v = Some s /\
  let xs := fst (ver (dspecs [([], 0)] os) v) in length xs = 32 /\
  ~ iterates 5 s h xs false (repeat Fwd 32) /\ ~ iterates 5 s h xs false [Jump 32] /\ elements 5 s h = UB.
Proof.
  exists (pushes 0 32).
  assert (V : dvalids 5 13 [([], 0)] (pushes 0 32)).
  { apply dvalidsb_ok; [lia|]. vm_compute. reflexivity. }
  assert (C : calms 5 [([], 0)] (pushes 0 32)).
  { apply calmsb_ok. vm_compute. reflexivity. }
  assert (X : match drun 5 13 0 [empty 13] (pushes 0 32) [] with
     | Ok (ss, h) => match nth_error ss 32 with
        | Some s => elements 5 s h = UB /\ match begin 5 s h with
             | Ok (t0, h') => moves 5 t0 (repeat Fwd 32) h' = UB /\ moves 5 t0 [Jump 32] h' = UB | UB => False end
        | None => False end
     | UB => False end) by (vm_compute; auto).
  destruct (drun 5 13 0 [empty 13] (pushes 0 32) []) as [[ss h]|] eqn:Er; [|contradiction].
  destruct (nth_error ss 32) as [s|] eqn:Es; [|contradiction]. exists ss, h, 32, s.
  split; [exact V|]. split; [exact C|]. split; [reflexivity|]. split; [exact Es|].
  destruct X as [X1 X2]. destruct (begin 5 s h) as [[t0 h']|] eqn:Eb; [|contradiction]. destruct X2 as [X2 X3].
  split; [reflexivity|]. split; [|split; [|exact X1]].
  - intros H. destruct (H 32 eq_refl) as (t1 & h1 & t & E1 & E2 & _). unfold starts in E1. rewrite Eb in E1. injection E1 as <- <-.
    rewrite X2 in E2. discriminate E2.
  - intros H. destruct (H 32 eq_refl) as (t1 & h1 & t & E1 & E2 & _). unfold starts in E1. rewrite Eb in E1. injection E1 as <- <-.
    rewrite X3 in E2. discriminate E2.
Qed.
Print Assumptions C59_full_blocks_refuted.
(** An empty vector has neither begin nor end. *)
Lemma empty_undefined (B maxd : nat) (h : dheap nat) (at_end : bool) :
  0 < B -> 0 < maxd -> ~ iterates B (empty maxd) h [] at_end [].
Proof.
  intros HB Hm H. destruct (H 0) as (t0 & h' & t & E & _); [now destruct at_end|].
  destruct maxd as [|m]; [lia|]. unfold starts in E. destruct at_end; [discriminate|].
  unfold begin, empty in E. cbn [stable dirty disp focus rbind] in E. unfold level in E. rewrite Nat.lxor_0_l, Nat.log2_nonpos, Nat.div_0_l in E by lia.
  cbn in E. discriminate.
Qed.
Theorem C59_empty_refuted : exists os ss h v s, dvalids 5 13 [([], 0)] os /\ calms 5 [([], 0)] os /\
  drun 5 13 0 [empty 13] os [] = Ok (ss, h) /\ nth_error ss v = Some s /\
  let xs := fst (ver (dspecs [([], 0)] os) v) in xs = [] /\
  (forall at_end, ~ iterates 5 s h xs at_end []) /\ elements 5 s h = UB.
Proof.
  exists [], [empty 13], [], 0, (empty 13). do 4 (split; [easy|]). split; [reflexivity|]. split; [|reflexivity].
  intros at_end. apply empty_undefined; lia.
Qed.
Print Assumptions C59_empty_refuted.

(** 70 elements in blocks of 4 with an update: forwards over blocks, back over their starts, jumps,
    to the end and from it. *)
Example C59_nonvacuous : let os := pushes 0 70 ++ [DUpdate 70 33 S] in
  dvalids 2 32 [([], 0)] os /\ calms 2 [([], 0)] os /\
  match drun 2 32 0 [empty 32] os [] with
  | Ok (ss, h) => match nth_error ss 71 with
     | Some s => exists xs, elements 2 s h = Ok xs /\ length xs = 70 /\ firstn 4 (skipn 31 xs) = [31; 32; 34; 34] /\
         match begin 2 s h with
         | Ok (t0, h') => match moves 2 t0 (repeat Fwd 5 ++ [Back; Back; Jump 65; Back; Back; Jump 33]) h' with
              | Ok t => deref_it t h' = Ok 34 | UB => False end
         | UB => False end /\
         match end_ 2 s h with
         | Ok (t0, h') => match moves 2 t0 (repeat Back 7) h' with
              | Ok t => deref_it t h' = Ok 63 | UB => False end
         | UB => False end /\ shy 2 70 70 (repeat Back 7) /\ shy 2 70 0 (repeat Fwd 5 ++ [Back; Back; Jump 65; Back; Back; Jump 33])
     | None => False end
  | UB => False
  end.
Proof.
  cbv zeta. split; [apply dvalidsb_ok; [lia|vm_compute; reflexivity]|]. split; [apply calmsb_ok; vm_compute; reflexivity|].
  set (r := drun _ _ _ _ _ _). vm_compute in r. cbv delta [r] beta. cbn iota.
  vm_compute nth_error. cbn iota. eexists. split; [vm_compute; reflexivity|]. split; [reflexivity|]. split; [reflexivity|].
  split; [vm_compute; reflexivity|]. split; [vm_compute; reflexivity|]. split; cbn; repeat split; auto; discriminate.
Qed.
