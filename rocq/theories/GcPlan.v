(** How a rebalancing plan cuts the nodes it redistributes: every node of the input ends up in
    at most two nodes of the result, and finishes at most one of them. *)
From Coq Require Import List NArith Arith Bool Lia ZifyN ZifyNat ZifyBool.
From Verif Require Import Common NList Rrb RrbInv RrbOps RrbShuffle.
Import ListNotations.
Local Open Scope N_scope.

Set Default Goal Selector "!".

(** [flow off curr counts]: with [off] entries in the node being filled, the nodes of [counts]
    entries fill nodes of [curr] entries; a node is taken as it is, appended, or cut once. *)
Fixpoint flow (off : N) (curr counts : list N) : Prop :=
  match counts, curr with
  | [], [] => off = 0
  | k :: cs, c :: cur =>
      off + k < c /\ flow (off + k) curr cs \/
      off + k = c /\ flow 0 cur cs \/
      c < off + k /\ 0 < off /\ off + k - c < hd 0 cur /\ flow (off + k - c) cur cs
  | _, _ => False
  end.

Section Plan.
Variable br : N.
Hypothesis Hbr : 0 < br.
Notation inr := (inr br).

Definition starts (off : N) (ct : list N) : Prop :=
  match ct with [] => off = 0 | c :: _ => off < c end.
Definition cont (F : list N) (off : N) (pre : list N) : Prop :=
  forall ct cs, starts off ct -> flow off ct cs -> flow 0 (F ++ ct) (pre ++ cs).

Lemma flow_same l : Forall inr l -> flow 0 l l.
Proof.
  induction 1 as [|c l Hc H IH]; [reflexivity|]. cbn [flow]. right. left. split; [lia|exact IH].
Qed.

Lemma cont_nil : cont [] 0 [].
Proof. intros ct cs _ H. exact H. Qed.
Lemma cont_end F rem nx pre : 0 < nx -> cont F rem pre -> cont (F ++ [rem + nx]) 0 (pre ++ [nx]).
Proof.
  intros Hn K ct cs Hs Hf. rewrite <- !app_assoc. cbn [app].
  apply K; [cbn; lia|]. cbn [flow]. right. left. split; [reflexivity|exact Hf].
Qed.
Lemma cont_more F rem nx pre : 0 < nx -> cont F rem pre -> cont F (rem + nx) (pre ++ [nx]).
Proof.
  intros Hn K ct cs Hs Hf. rewrite <- app_assoc. cbn [app].
  destruct ct as [|c ct]; [cbn in Hs; lia|]. cbn [starts] in Hs.
  apply K; [cbn; lia|]. cbn [flow]. left. split; [exact Hs|exact Hf].
Qed.
Lemma cont_cut F rem nx pre : 0 < rem < br -> br < rem + nx -> cont F rem pre ->
  cont (F ++ [br]) (rem + nx - br) (pre ++ [nx]).
Proof.
  intros Hr Hn K ct cs Hs Hf. rewrite <- !app_assoc. cbn [app].
  apply K; [cbn; lia|]. cbn [flow]. right. right. split; [exact Hn|]. split; [lia|].
  destruct ct as [|c ct]; [cbn in Hs; lia|]. cbn [starts hd] in *. auto.
Qed.

Lemma redistribute_flow fuel F x rest rem pre t i :
  redistribute fuel br (F ++ x :: rest) (lenN F) rem = Ok (t, i) ->
  Forall (fun c => c = br) F -> Forall inr rest -> 0 < rem < br -> cont F rem pre ->
  exists F' y z used rest',
    t = F' ++ y :: z :: rest' /\ i = lenN F' + 1 /\ rest = used ++ rest' /\
    Forall (fun c => c = br) F' /\ inr y /\
    cont F' y (pre ++ used) /\ cont (F' ++ [y]) 0 (pre ++ used).
Proof.
  revert F x rest rem pre. induction fuel as [|f IH]; intros F x rest rem pre E HF Hr Hrem K; [easy|].
  cbn [redistribute] in E.
  destruct rest as [|nx rest].
  { unfold rnthN, rnth in E. destruct (nth_error (F ++ [x]) (N.to_nat (lenN F + 1))) eqn:Z; [|easy].
    assert (nth_error (F ++ [x]) (N.to_nat (lenN F + 1)) <> None) as Z' by congruence.
    apply nth_error_Some in Z'. rewrite app_length in Z'. unfold lenN in Z'. cbn in Z'. lia. }
  inversion Hr as [|? ? Hnx Hr']; subst. unfold RrbShuffle.inr in Hnx.
  replace (F ++ x :: nx :: rest) with ((F ++ [x]) ++ nx :: rest) in E
    by (rewrite <- app_assoc; reflexivity).
  rewrite rnthN_app in E by apply lenN_snoc. cbn [rbind] in E.
  destruct (N.eqb_spec (N.min (rem + nx) br) 0); [lia|].
  rewrite <- app_assoc in E. cbn [app] in E. rewrite updN_app in E by reflexivity.
  destruct (N.ltb_spec 0 (rem + nx - N.min (rem + nx) br)) as [Hgo|Hstop].
  - replace (N.min (rem + nx) br) with br in E by lia.
    replace (rem + nx - N.min (rem + nx) br) with (rem + nx - br) in E by lia.
    replace (F ++ br :: nx :: rest) with ((F ++ [br]) ++ nx :: rest) in E
      by (rewrite <- app_assoc; reflexivity).
    rewrite <- (lenN_snoc F br) in E.
    destruct (IH (F ++ [br]) nx rest (rem + nx - br) (pre ++ [nx])) as
      (F' & y & z & used & rest' & H1 & H2 & H3 & H4 & H5 & H6 & H7); auto.
    { apply Forall_app. auto. } { lia. } { apply cont_cut; auto; lia. }
    exists F', y, z, (nx :: used), rest'. split; [exact H1|]. split; [exact H2|].
    split; [cbn; now f_equal|]. split; [exact H4|]. split; [exact H5|].
    rewrite <- app_assoc in H6, H7. auto.
  - replace (N.min (rem + nx) br) with (rem + nx) in E by lia. injection E as <- <-.
    exists F, (rem + nx), nx, [nx], rest. split; [reflexivity|]. split; [reflexivity|].
    split; [reflexivity|]. split; [exact HF|]. split; [unfold RrbShuffle.inr; lia|].
    split; [apply cont_more|apply cont_end]; auto; lia.
Qed.

Lemma skip_flow X F y suf pre :
  Forall (fun c => c = br) F -> Forall inr (y :: suf) ->
  cont F y pre -> cont (F ++ [y]) 0 pre ->
  forall w Z, y :: suf = X ++ w :: Z -> Forall (fun c => c = br) X ->
  exists pre' , Forall (fun c => c = br) (F ++ X) /\ pre ++ suf = pre' ++ Z /\
    cont (F ++ X) w pre' /\ cont (F ++ X ++ [w]) 0 pre'.
Proof.
  revert F y suf pre. induction X as [|x X IH]; intros F y suf pre HF Hin K1 K2 w Z E HX.
  - injection E as <- <-. exists pre. rewrite app_nil_r. auto.
  - injection E as <- E. pose proof (Forall_inv HX) as Hx. cbn in Hx.
    pose proof (Forall_inv_tail HX) as HX'.
    destruct suf as [|y' suf]; [destruct X; easy|].
    pose proof (Forall_inv_tail Hin) as Hin'. pose proof (Forall_inv Hin') as Hy'.
    unfold RrbShuffle.inr in Hy'.
    destruct (IH (F ++ [y]) y' suf (pre ++ [y'])) with (w := w) (Z := Z) as (pre' & H1 & H2 & H3 & H4); auto.
    + apply Forall_app. auto.
    + replace y' with (0 + y') at 1 by lia. apply cont_more; [lia|exact K2].
    + replace (F ++ [y]) with (F ++ [y]) by reflexivity.
      replace [y'] with [0 + y'] at 1 by (f_equal; lia). apply cont_end; [lia|exact K2].
    + exists pre'. rewrite <- !app_assoc in *. cbn [app] in *. rewrite <- ?app_assoc in *. auto.
Qed.

Lemma shuffle_loop_flow fuel optimal F y suf pre plan :
  shuffle_loop fuel br optimal (F ++ y :: suf) (lenN F) = Ok plan ->
  Forall (fun c => c = br) F -> Forall inr (y :: suf) ->
  cont F y pre -> cont (F ++ [y]) 0 pre ->
  flow 0 plan (pre ++ suf).
Proof.
  revert F y suf pre. induction fuel as [|f IH]; intros F y suf pre E HF Hin K1 K2;
    cbn [shuffle_loop] in E;
    (destruct (N.ltb_spec (lenN (F ++ y :: suf)) (optimal + 2)) as [Hlt|Hge];
     [injection E as <-; change (y :: suf) with ([y] ++ suf); rewrite app_assoc;
      apply K2; [destruct suf as [|c suf]; [reflexivity|];
        pose proof (Forall_inv (Forall_inv_tail Hin)) as Hc; unfold RrbShuffle.inr in Hc; cbn; lia|
        apply flow_same; exact (Forall_inv_tail Hin)]|]); [easy|].
  rewrite dropN_app in E.
  destruct (skip_ok_spec br Hbr (y :: suf) (lenN F) Hin) as [(X & w & Z & Ex & HX & Hw & Es)|Hall].
  2:{ exfalso. clear - E Hall Hbr.
      assert (skip_ok br (y :: suf) (lenN F) = UB) as Z; [|rewrite Z in E; easy].
      clear E. generalize (lenN F). induction Hall as [|c l -> H IH]; intros i; [reflexivity|].
      cbn [skip_ok]. destruct (N.ltb_spec (br - 1) br) as [H1|H1]; [apply IH|].
      exfalso. lia. }
  rewrite Es in E. cbn [rbind] in E.
  destruct (skip_flow X F y suf pre HF Hin K1 K2 w Z Ex HX) as (pre' & HF' & Ep & K1' & K2').
  rewrite Ex, Ep in *. replace (F ++ X ++ w :: Z) with ((F ++ X) ++ w :: Z) in E by now rewrite <- app_assoc.
  rewrite app_assoc in K2'.
  rewrite <- lenN_app in E. clear Es Ex Ep. set (F1 := F ++ X) in *. clearbody F1.
  rewrite rnthN_app in E by reflexivity. cbn [rbind] in E.
  assert (inr w /\ Forall inr Z) as [Hw1 HZ].
  { apply Forall_app in Hin as [_ Hin]. split; [exact (Forall_inv Hin)|exact (Forall_inv_tail Hin)]. }
  destruct (redistribute _ _ _ _ _) as [[t i]|] eqn:Er; [|easy]. cbn [rbind] in E.
  unfold RrbShuffle.inr in Hw1.
  destruct (redistribute_flow _ _ _ _ _ _ _ _ Er HF' HZ ltac:(lia) K1')
    as (F2 & y2 & z & used & rest' & -> & -> & -> & H4 & H5 & H6 & H7).
  destruct (lenN F2 + 1 <? _); [|easy].
  assert (takeN (lenN F2 + 1) (F2 ++ y2 :: z :: rest') = F2 ++ [y2]) as Et.
  { replace (F2 ++ y2 :: z :: rest') with ((F2 ++ [y2]) ++ z :: rest')
      by (rewrite <- app_assoc; reflexivity).
    rewrite <- (lenN_snoc F2 y2). apply takeN_app. }
  assert (dropN (lenN F2 + 1 + 1) (F2 ++ y2 :: z :: rest') = rest') as Ed.
  { replace (F2 ++ y2 :: z :: rest') with (((F2 ++ [y2]) ++ [z]) ++ rest')
      by (rewrite <- !app_assoc; reflexivity).
    rewrite <- (lenN_snoc F2 y2), <- (lenN_snoc (F2 ++ [y2]) z). apply dropN_app. }
  rewrite Et, Ed in E. replace (lenN F2 + 1 - 1) with (lenN F2) in E by lia.
  rewrite <- app_assoc in E. cbn [app] in E.
  apply Forall_app in HZ as [_ HZ].
  rewrite app_assoc. exact (IH F2 y2 rest' (pre' ++ used) E H4 (Forall_cons _ H5 HZ) H6 H7).
Qed.
End Plan.

Lemma shuffle_flow B BL cl counts plan :
  let br := match cl with O => 2 ^ BL | S _ => 2 ^ B end in
  counts <> [] -> Forall (fun c => 1 <= c <= br) counts ->
  shuffle B BL cl counts = Ok plan -> flow 0 plan counts.
Proof.
  intros br Hne Hin E. unfold shuffle in E.
  assert (2 ^ match cl with O => BL | S _ => B end = br) as Eb by (destruct cl; reflexivity).
  rewrite Eb in E.
  assert (0 < br) as Hbr by (rewrite <- Eb; apply pow2_pos).
  destruct counts as [|y suf]; [easy|].
  apply (shuffle_loop_flow br Hbr _ _ [] y suf [y] plan E).
  - constructor.
  - exact Hin.
  - pose proof (Forall_inv Hin) as Hy. cbn in Hy.
    replace y with (0 + y) at 1 by lia. change [y] with ([] ++ [y]). (apply cont_more with (br := br) || apply cont_more); [lia..|apply cont_nil || apply (cont_nil br)].
  - pose proof (Forall_inv Hin) as Hy. cbn in Hy.
    replace (@nil N ++ [y]) with (@nil N ++ [0 + y]) by (cbn; f_equal; lia).
    change [y] with ([] ++ [y]). (apply cont_end with (br := br) || apply cont_end); [lia..|apply cont_nil || apply (cont_nil br)].
Qed.
