(** Proofs about the bit tricks of Bits.v. *)
From Coq Require Import List NArith Arith Lia Bool ZArith ZifyBool ZifyNat ZifyN.
From Verif Require Import Bits BitsSpec.
Import ListNotations.
Local Open Scope N_scope.
Ltac Zify.zify_post_hook ::= Z.div_mod_to_equations.

(** ** popcount *)

Lemma popcount_double x : popcount (2 * x) = popcount x.
Proof. destruct x; reflexivity. Qed.

Lemma popcount_double_1 x : popcount (2 * x + 1) = S (popcount x).
Proof. destruct x; reflexivity. Qed.

Lemma popcount_div2 x :
  popcount x = ((if N.odd x then 1 else 0) + popcount (N.div2 x))%nat.
Proof. destruct x as [|[p|p|]]; reflexivity. Qed.

Lemma popcount_app lo hi k :
  lo < 2^k -> popcount (lo + 2^k * hi) = (popcount lo + popcount hi)%nat.
Proof.
  revert lo. induction k as [|k IH] using N.peano_ind; intros lo H.
  - rewrite N.pow_0_r in *. assert (lo = 0) by lia. subst.
    rewrite N.mul_1_l. reflexivity.
  - rewrite N.pow_succ_r' in *.
    destruct (N.odd lo) eqn:E.
    + assert (exists q, lo = 2 * q + 1) as [q ->] by (apply N.odd_spec in E; exact E).
      replace (2 * q + 1 + 2 * 2 ^ k * hi) with (2 * (q + 2^k * hi) + 1) by lia.
      rewrite !popcount_double_1, IH; lia.
    + assert (exists q, lo = 2 * q) as [q ->].
      { assert (N.Even lo) as [q ->].
        { apply N.even_spec. rewrite <- N.negb_odd, E. reflexivity. }
        eauto. }
      replace (2 * q + 2 * 2 ^ k * hi) with (2 * (q + 2^k * hi)) by lia.
      rewrite !popcount_double, IH; lia.
Qed.


Lemma filter_seq_S n (f : nat -> bool) :
  length (filter f (seq 0 (S n))) =
  ((if f 0%nat then 1 else 0) + length (filter (fun i => f (S i)) (seq 0 n)))%nat.
Proof.
  simpl. rewrite <- seq_shift.
  assert (forall l, length (filter f (map S l)) = length (filter (fun i => f (S i)) l)) as E.
  { induction l as [|a l IH]; simpl; [reflexivity|].
    destruct (f (S a)); simpl; rewrite IH; reflexivity. }
  destruct (f 0%nat); simpl; rewrite E; reflexivity.
Qed.

Lemma testbit_S x i : N.testbit x (N.of_nat (S i)) = N.testbit (N.div2 x) (N.of_nat i).
Proof.
  rewrite Nnat.Nat2N.inj_succ, N.testbit_succ_r_div2 by lia. reflexivity.
Qed.

Lemma popcount_count_set n x : x < 2 ^ N.of_nat n -> popcount x = count_set n x.
Proof.
  revert x. induction n as [|n IH]; intros x H.
  - simpl in H. assert (x = 0) by lia. subst. reflexivity.
  - unfold count_set. rewrite filter_seq_S.
    rewrite popcount_div2, IH.
    + unfold count_set. f_equal.
      * rewrite N.bit0_odd. reflexivity.
      * f_equal. apply filter_ext. intros i. symmetry. apply testbit_S.
    + rewrite N.div2_div. rewrite Nnat.Nat2N.inj_succ, N.pow_succ_r' in H.
      apply N.div_lt_upper_bound; lia.
Qed.

(** ** popcount_fallback *)

(** Little-endian bytes. *)
Fixpoint join (l : list N) : N :=
  match l with [] => 0 | c :: r => c + 256 * join r end.

Definition byte (c : N) := c < 256.

Fixpoint bytes_of (n : nat) (x : N) : list N :=
  match n with O => [] | S n => x mod 256 :: bytes_of n (x / 256) end.

Lemma bytes_of_byte n x : Forall byte (bytes_of n x).
Proof.
  revert x. induction n; simpl; constructor; auto.
  unfold byte. apply N.mod_lt. lia.
Qed.

Lemma join_bytes_of n x : x < 256 ^ N.of_nat n -> join (bytes_of n x) = x.
Proof.
  revert x. induction n as [|n IH]; intros x H.
  - simpl in *. lia.
  - rewrite Nnat.Nat2N.inj_succ, N.pow_succ_r' in H.
    cbn [bytes_of join]. rewrite IH.
    + pose proof (N.div_mod x 256). lia.
    + apply N.div_lt_upper_bound; lia.
Qed.

Lemma popcount_join l :
  Forall byte l -> popcount (join l) = list_sum (map popcount l).
Proof.
  induction 1 as [|c l Hc Hl IH]; [reflexivity|].
  cbn [join map list_sum fold_right]. change 256 with (2^8).
  rewrite popcount_app by exact Hc. rewrite IH. reflexivity.
Qed.

Lemma all_bytes_lift (p : N -> bool) :
  forallb (fun i => p (N.of_nat i)) (seq 0 256) = true ->
  forall c, byte c -> p c = true.
Proof.
  intros H c Hc. unfold byte in Hc.
  rewrite forallb_forall in H.
  specialize (H (N.to_nat c)). rewrite Nnat.N2Nat.id in H.
  apply H. apply in_seq. lia.
Qed.

Lemma land_join_cons c r m m' :
  byte c -> byte m ->
  N.land (c + 256 * r) (m + 256 * m') = N.land c m + 256 * N.land r m'.
Proof.
  intros Hc Hm. unfold byte in *.
  assert (L : forall a b, a < 256 -> a + 256 * b = N.lor a (N.shiftl b 8)).
  { intros a b Ha. rewrite N.shiftl_mul_pow2. change (2^8) with 256.
    rewrite (N.mul_comm b). rewrite <- N.lxor_lor, <- N.add_nocarry_lxor; auto;
    apply N.bits_inj_0; intros i; rewrite N.land_spec;
    destruct (N.lt_ge_cases i 8) as [Hi|Hi].
    all: try (replace (256 * b) with (N.shiftl b 8)
                by (rewrite N.shiftl_mul_pow2; change (2^8) with 256; lia)).
    all: try (rewrite (N.shiftl_spec_low b 8 i Hi); apply andb_false_r).
    all: replace (N.testbit a i) with false; auto; symmetry;
      rewrite <- (N.mod_small a (2^8)) by (change (2^8) with 256; lia);
      apply N.mod_pow2_bits_high; exact Hi. }
  assert (Hl : N.land c m < 256).
  { assert (N.land c m <= c); [|lia].
    apply N.ldiff_le. apply N.bits_inj_0. intros i.
    rewrite N.ldiff_spec, N.land_spec. destruct (N.testbit c i), (N.testbit m i); reflexivity. }
  rewrite (L c r Hc), (L m m' Hm), (L _ _ Hl).
  apply N.bits_inj. intros i.
  rewrite !N.land_spec, !N.lor_spec, !N.land_spec.
  destruct (N.lt_ge_cases i 8) as [Hi|Hi].
  - rewrite !N.shiftl_spec_low by exact Hi. rewrite !orb_false_r. reflexivity.
  - rewrite !N.shiftl_spec_high' by exact Hi. rewrite N.land_spec.
    assert (Z : forall a, a < 256 -> N.testbit a i = false).
    { intros a Ha. rewrite <- (N.mod_small a (2^8)) by (change (2^8) with 256; lia).
      apply N.mod_pow2_bits_high. exact Hi. }
    rewrite (Z c Hc), (Z m Hm). simpl. reflexivity.
Qed.

(** shift right by [k] within bytes, masked so that the bits coming from the next
    byte do not matter. *)
Lemma shr_join_cons k m c r m' :
  k < 8 -> byte c -> m < 2 ^ (8 - k) ->
  N.land (N.shiftr (c + 256 * r) k) (m + 256 * m') =
  N.land (N.shiftr c k) m + 256 * N.land (N.shiftr r k) m'.
Proof.
  intros Hk Hc Hm. unfold byte in Hc.
  assert (2 ^ (8 - k) * 2 ^ k = 256) as E8.
  { rewrite <- N.pow_add_r. replace (8 - k + k) with 8 by lia. reflexivity. }
  assert (Hk0 : 2 ^ k <> 0) by (apply N.pow_nonzero; lia).
  rewrite !N.shiftr_div_pow2.
  assert (E : (c + 256 * r) / 2 ^ k =
              (c / 2^k + 2 ^ (8 - k) * (r mod 2 ^ k)) + 256 * (r / 2 ^ k)).
  { rewrite <- E8. replace (c + 2 ^ (8 - k) * 2 ^ k * r) with (c + (2 ^ (8 - k) * r) * 2 ^ k) by lia.
    rewrite N.div_add by exact Hk0.
    pose proof (N.div_mod r (2^k) Hk0). nia. }
  rewrite E.
  assert (Hc2 : c / 2 ^ k < 2 ^ (8 - k)) by (apply N.div_lt_upper_bound; lia).
  assert (Hr2 : r mod 2 ^ k < 2 ^ k) by (apply N.mod_lt; exact Hk0).
  rewrite land_join_cons.
  - f_equal.
    apply N.bits_inj. intros i. rewrite !N.land_spec.
    destruct (N.lt_ge_cases i (8 - k)) as [Hi|Hi].
    + f_equal.
      rewrite <- (N.mod_pow2_bits_low (c / 2 ^ k + 2 ^ (8 - k) * (r mod 2 ^ k)) (8 - k) i Hi).
      rewrite <- (N.mod_pow2_bits_low (c / 2 ^ k) (8 - k) i Hi). f_equal.
      rewrite (N.mul_comm (2 ^ (8 - k))). apply N.mod_add. apply N.pow_nonzero. lia.
    + replace (N.testbit m i) with false; [now rewrite !andb_false_r|].
      symmetry. rewrite <- (N.mod_small m (2 ^ (8 - k))) by exact Hm.
      apply N.mod_pow2_bits_high. exact Hi.
  - unfold byte. nia.
  - unfold byte. assert (2 ^ (8 - k) <= 256); [|lia].
    rewrite <- E8. rewrite <- (N.mul_1_r (2 ^ (8 - k))) at 1. apply N.mul_le_mono_l. lia.
Qed.

(** Per-byte effect of the three steps. *)
Definition b1 (c : N) := c - N.land (N.shiftr c 1) 0x55.
Definition b2 (c : N) := N.land c 0x33 + N.land (N.shiftr c 2) 0x33.
Definition b3 (c : N) := N.land (c + N.shiftr c 4) 0x0F.

Definition nibbles4 (c : N) := c mod 16 <= 4 /\ c / 16 <= 4.

Lemma byte_table c : byte c ->
  (N.land (N.shiftr c 1) 0x55 <=? c) && (b1 c <? 256) && (b2 (b1 c) <? 256)
  && (b2 (b1 c) mod 16 <=? 4) && (b2 (b1 c) / 16 <=? 4)
  && (N.of_nat (popcount c) =? b3 (b2 (b1 c)))
  && (N.land (b1 c) 0x33 + N.land (N.shiftr (b1 c) 2) 0x33 <? 256) = true.
Proof.
  revert c. apply (all_bytes_lift (fun c =>
  (N.land (N.shiftr c 1) 0x55 <=? c) && (b1 c <? 256) && (b2 (b1 c) <? 256)
  && (b2 (b1 c) mod 16 <=? 4) && (b2 (b1 c) / 16 <=? 4)
  && (N.of_nat (popcount c) =? b3 (b2 (b1 c)))
  && (N.land (b1 c) 0x33 + N.land (N.shiftr (b1 c) 2) 0x33 <? 256))).
  vm_compute. reflexivity.
Qed.

Ltac btab c H :=
  let X := fresh in pose proof (byte_table c H) as X;
  rewrite !andb_true_iff, ?N.leb_le, ?N.ltb_lt, ?N.eqb_eq in X.

(** A mask repeating byte [m] [n] times. *)
Fixpoint rep (n : nat) (m : N) : N :=
  match n with O => 0 | S n => m + 256 * rep n m end.

Lemma step1 l : Forall byte l ->
  let x := join l in
  let y := N.land (N.shiftr x 1) (rep (length l) 0x55) in
  y <= x /\ x - y = join (map b1 l).
Proof.
  induction 1 as [|c l Hc Hl [IHle IH]]; [simpl; lia|].
  cbn [length join rep map]. cbv zeta in *.
  rewrite shr_join_cons; [|lia|exact Hc|vm_compute; reflexivity].
  btab c Hc. unfold b1 at 1. rewrite <- IH. unfold b1 in *. lia.
Qed.

Lemma step2 l : Forall byte l ->
  let x := join l in
  N.land x (rep (length l) 0x33) + N.land (N.shiftr x 2) (rep (length l) 0x33)
  = join (map b2 l).
Proof.
  induction 1 as [|c l Hc Hl IH]; [reflexivity|].
  cbn [length join rep map]. cbv zeta in *.
  rewrite shr_join_cons; [|lia|exact Hc|vm_compute; reflexivity].
  rewrite land_join_cons; [|exact Hc|vm_compute; reflexivity].
  rewrite <- IH. unfold b2 at 1. lia.
Qed.

Lemma nib_table c d : byte c -> byte d -> nibbles4 c -> nibbles4 d ->
  N.land (c + N.shiftr c 4 + 16 * (d mod 16)) 0x0F = b3 c
  /\ c + N.shiftr c 4 + 16 * (d mod 16) < 256.
Proof.
  unfold byte, nibbles4. intros Hc Hd [? ?] [? ?].
  assert (E : c = c mod 16 + 16 * (c / 16)) by (pose proof (N.div_mod c 16); lia).
  rewrite !N.shiftr_div_pow2. change (2^4) with 16.
  unfold b3. rewrite N.shiftr_div_pow2. change (2^4) with 16.
  change 0x0F with (N.ones 4). rewrite !N.land_ones. change (2^4) with 16.
  split; [|lia].
  replace (c + c / 16 + 16 * (d mod 16)) with (c + c / 16 + (d mod 16) * 16) by lia.
  apply N.mod_add. lia.
Qed.

Lemma join_mod16 l : Forall byte l -> Forall nibbles4 l ->
  exists d, byte d /\ nibbles4 d /\ join l mod 16 = d mod 16.
Proof.
  intros Hb Hn. destruct l as [|c l].
  - exists 0. unfold byte, nibbles4. simpl. repeat split; lia.
  - inversion Hb; inversion Hn; subst. exists c. repeat split; auto.
    + apply H5. + apply H5.
    + cbn [join]. replace (c + 256 * join l) with (c + (16 * join l) * 16) by lia.
      apply N.mod_add. lia.
Qed.

Lemma step3 l : Forall byte l -> Forall nibbles4 l ->
  let x := join l in
  N.land (x + N.shiftr x 4) (rep (length l) 0x0F) = join (map b3 l)
  /\ x + N.shiftr x 4 < 256 ^ N.of_nat (length l).
Proof.
  intros Hb Hn. induction Hb as [|c l Hc Hl IH]; [simpl; lia|].
  inversion Hn as [|? ? Hn1 Hn2]; subst.
  specialize (IH Hn2). cbv zeta in *. destruct IH as [IH IHlt].
  destruct (join_mod16 l Hl Hn2) as (d & Hd & Hd4 & Ed).
  destruct (nib_table c d Hc Hd Hn1 Hd4) as [T1 T2].
  cbn [length join rep map].
  assert (E : c + 256 * join l + N.shiftr (c + 256 * join l) 4 =
          (c + N.shiftr c 4 + 16 * (d mod 16)) + 256 * (join l + N.shiftr (join l) 4)).
  { rewrite !N.shiftr_div_pow2. change (2^4) with 16. rewrite <- Ed. lia. }
  rewrite E. split.
  - rewrite land_join_cons; [|exact T2|vm_compute; reflexivity].
    rewrite T1, IH. reflexivity.
  - rewrite Nnat.Nat2N.inj_succ, N.pow_succ_r'. nia.
Qed.

(** Multiplying by 0x0101..01 puts the byte sum in the top byte. *)
Fixpoint lsum (l : list N) : N := match l with [] => 0 | c :: r => c + lsum r end.

Lemma b1_byte c : byte c -> byte (b1 c).
Proof. intros H. btab c H. unfold byte. lia. Qed.
Lemma b2_b1 c : byte c -> byte (b2 (b1 c)) /\ nibbles4 (b2 (b1 c)).
Proof. intros H. btab c H. unfold byte, nibbles4. lia. Qed.
Lemma b3_pop c : byte c -> b3 (b2 (b1 c)) = N.of_nat (popcount c).
Proof. intros H. btab c H. lia. Qed.

Lemma pop_byte_le c : byte c -> (popcount c <= 8)%nat.
Proof.
  intros H. apply Nat.leb_le. revert c H.
  apply all_bytes_lift. vm_compute. reflexivity.
Qed.

Lemma map3 l : Forall byte l ->
  map b3 (map b2 (map b1 l)) = map (fun c => N.of_nat (popcount c)) l.
Proof.
  induction 1; simpl; [reflexivity|]. rewrite b3_pop by assumption. f_equal. assumption.
Qed.

Lemma Forall_b1 l : Forall byte l -> Forall byte (map b1 l).
Proof. induction 1; simpl; constructor; auto using b1_byte. Qed.
Lemma Forall_b2 l : Forall byte l ->
  Forall byte (map b2 (map b1 l)) /\ Forall nibbles4 (map b2 (map b1 l)).
Proof.
  induction 1 as [|c l Hc Hl [IH1 IH2]]; simpl; split; constructor; auto; apply b2_b1; auto.
Qed.

Lemma popcount_fallback32_correct x :
  x < 2^32 -> popcount_fallback32 x = N.of_nat (popcount x).
Proof.
  intros H. 
  assert (exists l, length l = 4%nat /\ Forall byte l /\ join l = x) as (l & El & Hl & Ex).
  { exists (bytes_of 4 x). split; [reflexivity|]. split; [apply bytes_of_byte|].
    apply (join_bytes_of 4). exact H. }
  pose proof (step1 l Hl) as S1. pose proof (step2 _ (Forall_b1 l Hl)) as S2.
  destruct (Forall_b2 l Hl) as [F1 F2].
  pose proof (step3 _ F1 F2) as S3. cbv zeta in *.
  rewrite !map_length, El in S2. rewrite !map_length in S3. rewrite El in S1, S3.
  rewrite Ex in S1. rewrite (map3 l Hl) in S3. destruct S3 as [S3 S3lt]. destruct S1 as [S1le S1].
  unfold popcount_fallback32.
  change 0x55555555 with (rep 4 0x55). change 0x33333333 with (rep 4 0x33).
  change 0xF0F0F0F with (rep 4 0x0F).
  assert (E1 : sub32 x (N.land (N.shiftr x 1) (rep 4 0x55)) = join (map b1 l)).
  { unfold sub32, w32. rewrite <- S1.
    revert S1le. generalize (N.land (N.shiftr x 1) (rep 4 85)). intros y Hy. clear -H Hy.
    replace (x + 2 ^ 32 - y) with (x - y + 1 * 2^32) by lia.
    rewrite N.mod_add by (vm_compute; discriminate). apply N.mod_small. lia. }
  cbv zeta. rewrite E1. rewrite S2.
  assert (join (map b2 (map b1 l)) < 2^32) as Hj.
  { eapply N.le_lt_trans; [|exact S3lt]. lia. }
  change (256 ^ N.of_nat 4) with (2^32) in S3lt.
  assert (W : forall y, y < 2^32 -> w32 y = y) by (intros; apply N.mod_small; assumption).
  rewrite (W _ Hj), (W _ S3lt).
  rewrite S3. rewrite <- Ex, (popcount_join l Hl).
  assert (Hp : Forall (fun c => (popcount c <= 8)%nat) l).
  { eapply Forall_impl; [|exact Hl]. exact pop_byte_le. }
  clear -El Hp.
  destruct l as [|c0 [|c1 [|c2 [|c3 [|]]]]]; try discriminate El.
  cbn [map join list_sum fold_right].
  repeat match goal with H : Forall _ (_ :: _) |- _ => inversion H; clear H; subst end.
  generalize dependent (popcount c0). generalize dependent (popcount c1).
  generalize dependent (popcount c2). generalize dependent (popcount c3).
  clear. intros p3 H3 p2 H2 p1 H1 p0 H0.
  unfold w32. rewrite N.shiftr_div_pow2.
  change (2^32) with 4294967296. change (2^24) with 16777216.
  change 0x1010101 with 16843009.
  match goal with |- ((?y * ?m) mod _) / _ = _ =>
    replace (y * m) with ((N.of_nat p0 + N.of_nat p1 + N.of_nat p2 + N.of_nat p3) * 16777216 + ((N.of_nat p0) * 1 + (N.of_nat p0 + N.of_nat p1) * 256 + (N.of_nat p0 + N.of_nat p1 + N.of_nat p2) * 65536) + ((N.of_nat p1 + N.of_nat p2 + N.of_nat p3) * 1 + (N.of_nat p2 + N.of_nat p3) * 256 + (N.of_nat p3) * 65536) * 4294967296) by lia end.
  rewrite N.mod_add by discriminate. rewrite N.mod_small by lia.
  rewrite N.div_add_l by discriminate. rewrite N.div_small by lia. lia.
Qed.

Lemma popcount_fallback64_correct x :
  x < 2^64 -> popcount_fallback64 x = N.of_nat (popcount x).
Proof.
  intros H. 
  assert (exists l, length l = 8%nat /\ Forall byte l /\ join l = x) as (l & El & Hl & Ex).
  { exists (bytes_of 8 x). split; [reflexivity|]. split; [apply bytes_of_byte|].
    apply (join_bytes_of 8). exact H. }
  pose proof (step1 l Hl) as S1. pose proof (step2 _ (Forall_b1 l Hl)) as S2.
  destruct (Forall_b2 l Hl) as [F1 F2].
  pose proof (step3 _ F1 F2) as S3. cbv zeta in *.
  rewrite !map_length, El in S2. rewrite !map_length in S3. rewrite El in S1, S3.
  rewrite Ex in S1. rewrite (map3 l Hl) in S3. destruct S3 as [S3 S3lt]. destruct S1 as [S1le S1].
  unfold popcount_fallback64.
  change 0x5555555555555555 with (rep 8 0x55). change 0x3333333333333333 with (rep 8 0x33).
  change 0x0F0F0F0F0F0F0F0F with (rep 8 0x0F).
  assert (E1 : sub64 x (N.land (N.shiftr x 1) (rep 8 0x55)) = join (map b1 l)).
  { unfold sub64, w64. rewrite <- S1.
    revert S1le. generalize (N.land (N.shiftr x 1) (rep 8 85)). intros y Hy. clear -H Hy.
    replace (x + 2 ^ 64 - y) with (x - y + 1 * 2^64) by lia.
    rewrite N.mod_add by (vm_compute; discriminate). apply N.mod_small. lia. }
  cbv zeta. rewrite E1. rewrite S2.
  assert (join (map b2 (map b1 l)) < 2^64) as Hj.
  { eapply N.le_lt_trans; [|exact S3lt]. lia. }
  change (256 ^ N.of_nat 8) with (2^64) in S3lt.
  assert (W : forall y, y < 2^64 -> w64 y = y) by (intros; apply N.mod_small; assumption).
  rewrite (W _ Hj), (W _ S3lt).
  rewrite S3. rewrite <- Ex, (popcount_join l Hl).
  assert (Hp : Forall (fun c => (popcount c <= 8)%nat) l).
  { eapply Forall_impl; [|exact Hl]. exact pop_byte_le. }
  clear -El Hp.
  destruct l as [|c0 [|c1 [|c2 [|c3 [|c4 [|c5 [|c6 [|c7 [|]]]]]]]]]; try discriminate El.
  cbn [map join list_sum fold_right].
  repeat match goal with H : Forall _ (_ :: _) |- _ => inversion H; clear H; subst end.
  generalize dependent (popcount c0). generalize dependent (popcount c1).
  generalize dependent (popcount c2). generalize dependent (popcount c3).
  generalize dependent (popcount c4). generalize dependent (popcount c5).
  generalize dependent (popcount c6). generalize dependent (popcount c7).
  clear. intros p7 H7 p6 H6 p5 H5 p4 H4 p3 H3 p2 H2 p1 H1 p0 H0.
  unfold w64. rewrite N.shiftr_div_pow2.
  change (2^64) with 18446744073709551616. change (2^56) with 72057594037927936.
  change 0x0101010101010101 with 72340172838076673.
  match goal with |- ((?y * ?m) mod _) / _ = _ =>
    replace (y * m) with ((N.of_nat p0 + N.of_nat p1 + N.of_nat p2 + N.of_nat p3 + N.of_nat p4 + N.of_nat p5 + N.of_nat p6 + N.of_nat p7) * 72057594037927936 + ((N.of_nat p0) * 1 + (N.of_nat p0 + N.of_nat p1) * 256 + (N.of_nat p0 + N.of_nat p1 + N.of_nat p2) * 65536 + (N.of_nat p0 + N.of_nat p1 + N.of_nat p2 + N.of_nat p3) * 16777216 + (N.of_nat p0 + N.of_nat p1 + N.of_nat p2 + N.of_nat p3 + N.of_nat p4) * 4294967296 + (N.of_nat p0 + N.of_nat p1 + N.of_nat p2 + N.of_nat p3 + N.of_nat p4 + N.of_nat p5) * 1099511627776 + (N.of_nat p0 + N.of_nat p1 + N.of_nat p2 + N.of_nat p3 + N.of_nat p4 + N.of_nat p5 + N.of_nat p6) * 281474976710656) + ((N.of_nat p1 + N.of_nat p2 + N.of_nat p3 + N.of_nat p4 + N.of_nat p5 + N.of_nat p6 + N.of_nat p7) * 1 + (N.of_nat p2 + N.of_nat p3 + N.of_nat p4 + N.of_nat p5 + N.of_nat p6 + N.of_nat p7) * 256 + (N.of_nat p3 + N.of_nat p4 + N.of_nat p5 + N.of_nat p6 + N.of_nat p7) * 65536 + (N.of_nat p4 + N.of_nat p5 + N.of_nat p6 + N.of_nat p7) * 16777216 + (N.of_nat p5 + N.of_nat p6 + N.of_nat p7) * 4294967296 + (N.of_nat p6 + N.of_nat p7) * 1099511627776 + (N.of_nat p7) * 281474976710656) * 18446744073709551616) by lia end.
  rewrite N.mod_add by discriminate. rewrite N.mod_small by lia.
  rewrite N.div_add_l by discriminate. rewrite N.div_small by lia. lia.
Qed.

(** ** set_bits_range *)

Lemma land_double x y : N.land (2 * x) (2 * y) = 2 * N.land x y.
Proof. destruct x, y; reflexivity. Qed.
Lemma land_double_1_0 x y : N.land (2 * x + 1) (2 * y) = 2 * N.land x y.
Proof. destruct x, y; reflexivity. Qed.
Lemma land_double_0_1 x y : N.land (2 * x) (2 * y + 1) = 2 * N.land x y.
Proof. destruct x, y; reflexivity. Qed.
Lemma lxor_double x y : N.lxor (2 * x) (2 * y) = 2 * N.lxor x y.
Proof. destruct x, y; reflexivity. Qed.
Lemma lxor_double_1_0 x y : N.lxor (2 * x + 1) (2 * y) = 2 * N.lxor x y + 1.
Proof.
  destruct x as [|p], y as [|q]; try reflexivity.
  simpl. destruct (Pos.lxor p q); reflexivity.
Qed.

Lemma clearlsbit_double x : x <> 0 -> clearlsbit (2 * x) = 2 * clearlsbit x.
Proof.
  intros H. unfold clearlsbit.
  replace (2 * x - 1) with (2 * (x - 1) + 1) by lia. apply land_double_0_1.
Qed.
Lemma clearlsbit_double_1 x : clearlsbit (2 * x + 1) = 2 * x.
Proof.
  unfold clearlsbit. replace (2 * x + 1 - 1) with (2 * x) by lia.
  rewrite land_double_1_0, N.land_diag. reflexivity.
Qed.
Lemma lsbit_double x : x <> 0 -> lsbit (2 * x) = 2 * lsbit x.
Proof. intros H. unfold lsbit. rewrite clearlsbit_double by exact H. apply lxor_double. Qed.
Lemma lsbit_double_1 x : lsbit (2 * x + 1) = 1.
Proof.
  unfold lsbit. rewrite clearlsbit_double_1, lxor_double_1_0, N.lxor_nilpotent. reflexivity.
Qed.

Lemma set_bits_loop_double f x :
  set_bits_loop f (2 * x) = option_map (map (N.mul 2)) (set_bits_loop f x).
Proof.
  revert x. induction f as [|f IH]; intros x.
  - destruct x; reflexivity.
  - destruct (N.eq_dec x 0) as [->|Hx]; [reflexivity|].
    cbn [set_bits_loop].
    rewrite (proj2 (N.eqb_neq (2 * x) 0)) by lia.
    rewrite (proj2 (N.eqb_neq x 0)) by exact Hx.
    rewrite clearlsbit_double, IH, lsbit_double by exact Hx.
    destruct (set_bits_loop f (clearlsbit x)); reflexivity.
Qed.

Lemma set_bits_loop_double_1 f x :
  set_bits_loop (S f) (2 * x + 1) = option_map (cons 1) (set_bits_loop f (2 * x)).
Proof.
  cbn [set_bits_loop]. rewrite (proj2 (N.eqb_neq (2 * x + 1) 0)) by lia.
  rewrite clearlsbit_double_1, lsbit_double_1.
  destruct (set_bits_loop f (2 * x)); reflexivity.
Qed.


Lemma bit_indices_S n x :
  bit_indices (S n) x =
  (if N.odd x then [0%nat] else []) ++ map S (bit_indices n (N.div2 x)).
Proof.
  unfold bit_indices. cbn [seq]. rewrite <- seq_shift.
  assert (E : forall l,
    filter (fun i => N.testbit x (N.of_nat i)) (map S l) =
    map S (filter (fun i => N.testbit (N.div2 x) (N.of_nat i)) l)).
  { induction l as [|a l IH]; [reflexivity|].
    cbn [map filter]. rewrite testbit_S, IH.
    destruct (N.testbit (N.div2 x) (N.of_nat a)); reflexivity. }
  cbn [filter]. rewrite E. change (N.of_nat 0) with 0. rewrite N.bit0_odd.
  destruct (N.odd x); reflexivity.
Qed.

Lemma set_bits_loop_correct n f x :
  x < 2 ^ N.of_nat n -> (popcount x <= f)%nat ->
  set_bits_loop f x = Some (map (fun i => 2 ^ N.of_nat i) (bit_indices n x)).
Proof.
  revert f x. induction n as [|n IH]; intros f x Hx Hf.
  - simpl in Hx. assert (x = 0) by lia. subst. destruct f; reflexivity.
  - rewrite bit_indices_S. rewrite Nnat.Nat2N.inj_succ, N.pow_succ_r' in Hx.
    assert (Hd : x = 2 * N.div2 x + (if N.odd x then 1 else 0)).
    { pose proof (N.div2_odd x) as E. destruct (N.odd x); exact E. }
    assert (Hlt : N.div2 x < 2 ^ N.of_nat n) by (destruct (N.odd x); lia).
    assert (E2 : map (N.mul 2) (map (fun i => 2 ^ N.of_nat i) (bit_indices n (N.div2 x)))
                 = map (fun i => 2 ^ N.of_nat i) (map S (bit_indices n (N.div2 x)))).
    { rewrite !map_map. apply map_ext. intros i.
      rewrite Nnat.Nat2N.inj_succ, N.pow_succ_r'. reflexivity. }
    rewrite popcount_div2 in Hf.
    destruct (N.odd x); rewrite Hd at 1.
    + destruct f as [|f]; [lia|].
      rewrite set_bits_loop_double_1, set_bits_loop_double, (IH f) by (auto; lia).
      cbn [option_map app map]. rewrite E2. reflexivity.
    + rewrite N.add_0_r, set_bits_loop_double, (IH f) by (auto; lia).
      cbn [option_map app map]. rewrite E2. reflexivity.
Qed.

Lemma filter_length_le {A} (f : A -> bool) l : (length (filter f l) <= length l)%nat.
Proof. induction l as [|a l IH]; simpl; [lia|]. destruct (f a); simpl; lia. Qed.

Lemma popcount_le n x : x < 2 ^ N.of_nat n -> (popcount x <= n)%nat.
Proof.
  intros H. rewrite (popcount_count_set n x H). unfold count_set.
  etransitivity; [apply filter_length_le|]. rewrite seq_length. lia.
Qed.

Lemma set_bits_correct n x :
  (n <= 64)%nat -> x < 2 ^ N.of_nat n ->
  set_bits x = Some (map (fun i => 2 ^ N.of_nat i) (bit_indices n x)).
Proof.
  intros Hn Hx. apply set_bits_loop_correct; [exact Hx|].
  pose proof (popcount_le n x Hx). lia.
Qed.

(** ** log2 *)

Lemma log2_clz_correct x : 0 < x -> x < 2^64 -> log2_clz x = N.log2 x.
Proof.
  intros H0 H. unfold log2_clz, clz64.
  rewrite (proj2 (N.eqb_neq x 0)) by lia.
  rewrite N.size_log2 by lia.
  assert (N.log2 x < 64) by (apply N.log2_lt_pow2; lia). lia.
Qed.

Lemma log2_aux_correct f x r :
  x < 2 ^ N.of_nat f -> log2_aux f x r = Some (r + N.log2 x).
Proof.
  revert x r. induction f as [|f IH]; intros x r H.
  - simpl in H. assert (x = 0) by lia. subst. cbn. f_equal. lia.
  - cbn [log2_aux]. destruct (x <=? 1) eqn:E.
    + assert (x = 0 \/ x = 1) as [-> | ->] by lia; cbn; f_equal; lia.
    + rewrite N.shiftr_div_pow2. change (2^1) with 2. rewrite IH.
      * f_equal.
        assert (N.log2 x = N.succ (N.log2 (x / 2))); [|lia].
        assert (Hx : 1 < x) by lia.
        rewrite <- N.div2_div.
        rewrite (N.div2_odd x) at 1. destruct (N.odd x); cbn [N.b2n].
        -- rewrite N.log2_succ_double; [lia|]. rewrite N.div2_div. lia.
        -- rewrite N.add_0_r, N.log2_double; [lia|]. rewrite N.div2_div. lia.
      * rewrite Nnat.Nat2N.inj_succ, N.pow_succ_r' in H. lia.
Qed.

(** ** Statements in terms of the specification *)

Lemma popcount_fallback32_spec x : x < 2^32 ->
  popcount_fallback32 x = N.of_nat (count_set 32 x).
Proof.
  intros H. rewrite popcount_fallback32_correct by exact H. f_equal.
  apply popcount_count_set. exact H.
Qed.

Lemma popcount_fallback64_spec x : x < 2^64 ->
  popcount_fallback64 x = N.of_nat (count_set 64 x).
Proof.
  intros H. rewrite popcount_fallback64_correct by exact H. f_equal.
  apply popcount_count_set. exact H.
Qed.

Lemma log2_clz_spec x : 0 < x -> x < 2^64 ->
  2 ^ log2_clz x <= x < 2 ^ (log2_clz x + 1).
Proof.
  intros H0 H. rewrite log2_clz_correct by assumption.
  rewrite N.add_1_r. apply N.log2_spec. exact H0.
Qed.

Lemma log2_aux_spec x : 0 < x -> x < 2^64 ->
  exists r, log2_aux 64 x 0 = Some r /\ 2 ^ r <= x < 2 ^ (r + 1).
Proof.
  intros H0 H. exists (N.log2 x). split.
  - rewrite log2_aux_correct by exact H. reflexivity.
  - rewrite N.add_1_r. apply N.log2_spec. exact H0.
Qed.

Lemma derive_bits_leaf_spec space sz :
  0 < sz -> sz <= space -> space < 2^64 ->
  2 ^ derive_bits_leaf space sz * sz <= space < 2 ^ (derive_bits_leaf space sz + 1) * sz.
Proof.
  intros H0 H1 H2. unfold derive_bits_leaf.
  assert (0 < space / sz) by (apply N.div_str_pos; lia).
  assert (space / sz <= space) by (apply N.div_le_upper_bound; nia).
  destruct (log2_clz_spec (space / sz)) as [L U]; [lia|lia|].
  assert (E : space = sz * (space / sz) + space mod sz) by (apply N.div_mod; lia).
  assert (space mod sz < sz) by (apply N.mod_lt; lia).
  remember (2 ^ log2_clz (space / sz)) as p.
  remember (2 ^ (log2_clz (space / sz) + 1)) as q.
  remember (space / sz) as d. remember (space mod sz) as m.
  split; nia.
Qed.

Lemma derive_bits_leaf_big space sz : space < sz -> derive_bits_leaf space sz = 0.
Proof. intros H. unfold derive_bits_leaf. rewrite N.div_small by exact H. reflexivity. Qed.
