(** The rebalancing plan of concatenation (concat_rebalance_plan::shuffle). *)
From Coq Require Import List NArith Arith Bool Lia ZifyN ZifyNat ZifyBool.
From Verif Require Import Common NList Rrb RrbInv RrbOps.
Import ListNotations.
Local Open Scope N_scope.

Set Default Goal Selector "!".

Section Shuffle.
Variable br : N.
Hypothesis Hbr : 0 < br.

Definition inr (c : N) : Prop := 1 <= c <= br.

Lemma sumN_full F : Forall (fun c => c = br) F -> sumN F = lenN F * br.
Proof.
  induction 1 as [|c F -> HF IH]; [reflexivity|]. rewrite sumN_cons, lenN_cons, IH. lia.
Qed.

Lemma skip_ok_spec rest i :
  Forall inr rest ->
  (exists X y Z, rest = X ++ y :: Z /\ Forall (fun c => c = br) X /\ y < br /\
     skip_ok br rest i = Ok (i + lenN X)) \/ Forall (fun c => c = br) rest.
Proof.
  intros H. revert i. induction H as [|c rest Hc H IH]; intros i; [right; constructor|].
  cbn [skip_ok]. unfold inr in Hc. destruct (N.ltb_spec (br - 1) c) as [Hlt|Hge].
  - destruct (IH (i + 1)) as [(X & y & Z & -> & HX & Hy & E)|Hall].
    + left. exists (c :: X), y, Z. split; [reflexivity|].
      split; [constructor; [lia|auto]|]. split; [auto|]. rewrite E, lenN_cons. f_equal; lia.
    + right. constructor; [lia|auto].
  - left. exists [], c, rest. split; [reflexivity|]. split; [constructor|]. split; [lia|].
    f_equal. change (lenN (@nil N)) with 0. lia.
Qed.

Lemma redistribute_spec fuel F x rest remaining :
  (length rest < fuel)%nat -> Forall (fun c => c = br) F -> Forall inr rest ->
  0 < remaining < br ->
  lenN F * br + remaining + sumN rest + 2 * br <= (lenN F + 1 + lenN rest) * br ->
  exists F' y z rest',
    redistribute fuel br (F ++ x :: rest) (lenN F) remaining
      = Ok (F' ++ y :: z :: rest', lenN F' + 1) /\
    Forall (fun c => c = br) F' /\ inr y /\ Forall inr rest' /\
    lenN F' + 2 + lenN rest' = lenN F + 1 + lenN rest /\
    lenN F' * br + y + sumN rest' = lenN F * br + remaining + sumN rest.
Proof.
  revert fuel F x remaining. induction rest as [|nx rest IH]; intros fuel F x remaining Hf HF Hr Hrem Htot.
  - change (lenN (@nil N)) with 0 in Htot. change (sumN []) with 0 in Htot. lia.
  - destruct fuel as [|f]; [cbn in Hf; lia|]. cbn [redistribute].
    inversion Hr as [|? ? Hnx Hr']; subst.
    replace (F ++ x :: nx :: rest) with ((F ++ [x]) ++ nx :: rest)
      by (rewrite <- app_assoc; reflexivity).
    rewrite rnthN_app by apply lenN_snoc. cbn [rbind].
    destruct (N.eqb_spec (N.min (remaining + nx) br) 0); [lia|].
    rewrite <- app_assoc. cbn [app]. rewrite updN_app by reflexivity.
    rewrite sumN_cons, lenN_cons in Htot. unfold inr in Hnx.
    destruct (N.ltb_spec 0 (remaining + nx - N.min (remaining + nx) br)) as [Hgo|Hstop].
    + replace (N.min (remaining + nx) br) with br by lia.
      replace (F ++ br :: nx :: rest) with ((F ++ [br]) ++ nx :: rest)
        by (rewrite <- app_assoc; reflexivity).
      rewrite <- (lenN_snoc F br).
      destruct (IH f (F ++ [br]) nx (remaining + nx - br)) as (F' & y & z & rest' & E & H1 & H2 & H3 & H4 & H5).
      * cbn in Hf. lia.
      * apply Forall_app. auto.
      * auto.
      * lia.
      * rewrite lenN_snoc. lia.
      * exists F', y, z, rest'. split; [exact E|]. split; [auto|]. split; [auto|]. split; [auto|].
        rewrite lenN_snoc in *. rewrite sumN_cons, lenN_cons. split; lia.
    + replace (N.min (remaining + nx) br) with (remaining + nx) by lia.
      exists F, (remaining + nx), nx, rest. split; [reflexivity|]. split; [auto|].
      split; [unfold inr; lia|]. split; [auto|]. rewrite sumN_cons, lenN_cons. split; lia.
Qed.

Lemma shuffle_loop_spec fuel optimal counts i total :
  (length counts <= fuel)%nat -> 0 < total -> optimal = (total - 1) / br + 1 ->
  Forall inr counts -> sumN counts = total -> Forall (fun c => c = br) (takeN i counts) ->
  i <= lenN counts ->
  exists plan, shuffle_loop fuel br optimal counts i = Ok plan /\
    Forall inr plan /\ sumN plan = total /\ lenN plan <= lenN counts /\
    lenN plan <= N.max (optimal + 1) 1.
Proof.
  intros Hf Htot Hopt. revert counts i Hf.
  assert (total <= optimal * br) as Hto.
  { subst optimal. pose proof (N.div_mod (total - 1) br ltac:(lia)).
    pose proof (N.mod_lt (total - 1) br ltac:(lia)). nia. }
  induction fuel as [|f IH]; intros counts i Hf Hin Hsum Hfull Hi; cbn [shuffle_loop].
  { destruct counts; [|cbn in Hf; lia]. cbn in Hsum. lia. }
  destruct (N.ltb_spec (lenN counts) (optimal + 2)) as [Hlt|Hge].
  { exists counts. split; [reflexivity|]. repeat (split; [auto; lia|]). lia. }
  assert (sumN counts + 2 * br <= lenN counts * br) as Hslack by nia.
  assert (Forall inr (dropN i counts)) as Hd.
  { rewrite <- (takeN_dropN i counts) in Hin. now apply Forall_app in Hin. }
  assert (lenN (takeN i counts) = i) as Hti by (rewrite lenN_takeN; lia).
  destruct (skip_ok_spec (dropN i counts) i Hd) as [(X & y & Z & E & HX & Hy & Es)|Hall].
  2:{ exfalso. rewrite <- (takeN_dropN i counts) in Hslack.
      rewrite sumN_app, (sumN_full _ Hfull), (sumN_full _ Hall), lenN_app in Hslack. nia. }
  rewrite Es. cbn [rbind].
  assert (counts = (takeN i counts ++ X) ++ y :: Z) as Ec
    by (rewrite <- app_assoc, <- E; now rewrite takeN_dropN).
  set (F := takeN i counts ++ X) in *.
  assert (Forall (fun c => c = br) F) as HF by (apply Forall_app; auto).
  assert (i + lenN X = lenN F) as EF by (subst F; rewrite lenN_app; lia).
  rewrite EF. clearbody F. clear E Es Hd Hfull.
  assert (inr y /\ Forall inr Z) as [Hyr HZ].
  { rewrite Ec in Hin. apply Forall_app in Hin as [_ Hin]. inversion Hin; auto. }
  subst counts. rewrite rnthN_app by reflexivity. cbn [rbind].
  rewrite sumN_app, sumN_cons, (sumN_full _ HF) in *. rewrite lenN_app, lenN_cons in *.
  destruct (redistribute_spec (S (length (F ++ y :: Z))) F y Z y)
    as (F' & w & z & rest' & Er & H1 & H2 & H3 & H4 & H5); auto.
  { rewrite app_length. cbn. lia. } { unfold inr in Hyr. lia. } { lia. }
  rewrite Er. cbn [rbind].
  destruct (N.ltb_spec (lenN F' + 1) (lenN (F' ++ w :: z :: rest'))) as [_|Hbad].
  2:{ rewrite lenN_app, !lenN_cons in Hbad. lia. }
  assert (takeN (lenN F' + 1) (F' ++ w :: z :: rest') = F' ++ [w]) as Et.
  { replace (F' ++ w :: z :: rest') with ((F' ++ [w]) ++ z :: rest')
      by (rewrite <- app_assoc; reflexivity).
    rewrite <- (lenN_snoc F' w). apply takeN_app. }
  assert (dropN (lenN F' + 1 + 1) (F' ++ w :: z :: rest') = rest') as Edp.
  { replace (F' ++ w :: z :: rest') with (((F' ++ [w]) ++ [z]) ++ rest')
      by (rewrite <- !app_assoc; reflexivity).
    rewrite <- (lenN_snoc F' w), <- (lenN_snoc (F' ++ [w]) z). apply dropN_app. }
  rewrite Et, Edp. replace (lenN F' + 1 - 1) with (lenN F') by lia.
  rewrite <- app_assoc. cbn [app].
  destruct (IH (F' ++ w :: rest') (lenN F')) as (plan & Ep & Hp1 & Hp2 & Hp3 & Hp4).
  - rewrite app_length in *. cbn [length] in *. unfold lenN in H4. lia.
  - apply Forall_app. split; [|constructor; auto].
    eapply Forall_impl; [|exact H1]. unfold inr. cbn. intros; lia.
  - rewrite sumN_app, sumN_cons, (sumN_full _ H1). lia.
  - rewrite takeN_app. auto.
  - rewrite lenN_app. lia.
  - exists plan. split; [exact Ep|]. split; [auto|]. split; [auto|].
    rewrite lenN_app, lenN_cons in Hp3. split; lia.
Qed.

End Shuffle.

(** The plan for nodes of at most [2^bits] entries. *)
Lemma shuffle_ok B BL cl counts :
  let br := match cl with O => 2 ^ BL | S _ => 2 ^ B end in
  counts <> [] -> Forall (fun c => 1 <= c <= br) counts ->
  exists plan, shuffle B BL cl counts = Ok plan /\
    Forall (fun c => 1 <= c <= br) plan /\ sumN plan = sumN counts /\
    lenN plan <= lenN counts /\ lenN plan <= (sumN counts - 1) / br + 2.
Proof.
  intros br Hne Hin. unfold shuffle.
  set (bits := match cl with O => BL | S _ => B end).
  assert (br = 2 ^ bits) as Ebr by (subst br bits; destruct cl; reflexivity).
  rewrite <- Ebr, N.shiftr_div_pow2, <- Ebr. clearbody br bits.
  assert (0 < br) as Hbr by (rewrite Ebr; apply pow2_pos).
  assert (0 < sumN counts) as Hpos.
  { destruct counts as [|c cs]; [easy|]. inversion Hin; subst. rewrite sumN_cons. lia. }
  destruct (shuffle_loop_spec br Hbr (length counts) ((sumN counts - 1) / br + 1) counts 0 (sumN counts))
    as (plan & E & H1 & H2 & H3 & H4); auto; try lia.
  - constructor.
  - exists plan. split; [exact E|]. split; [exact H1|]. split; [auto|]. split; [auto|].
    clear - H4. generalize dependent ((sumN counts - 1) / br). intros; lia.
Qed.
