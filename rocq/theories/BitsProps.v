(** Properties C11, C12, C13: bit manipulation. *)
From Coq Require Import List NArith Arith Lia.
From Verif Require Import Bits BitsSpec BitsProofs.
Import ListNotations.
Local Open Scope N_scope.

(** C11: the portable population count of every 32-bit and every 64-bit word. *)
Theorem C11_popcount_fallback32 : forall x, x < 2^32 ->
  popcount_fallback32 x = N.of_nat (count_set 32 x).
Proof. exact popcount_fallback32_spec. Qed.
Print Assumptions C11_popcount_fallback32.

Theorem C11_popcount_fallback64 : forall x, x < 2^64 ->
  popcount_fallback64 x = N.of_nat (count_set 64 x).
Proof. exact popcount_fallback64_spec. Qed.
Print Assumptions C11_popcount_fallback64.

(** The built-in population count the other models use agrees with the same
    specification. *)
Theorem C11_popcount_builtin : forall n x, x < 2 ^ N.of_nat n ->
  popcount x = count_set n x.
Proof. exact popcount_count_set. Qed.
Print Assumptions C11_popcount_builtin.

Example C11_example : popcount_fallback32 0xF00F0001 = 9 /\
                      popcount_fallback64 0x8000000000000003 = 3.
Proof. split; vm_compute; reflexivity. Qed.

(** C12: iteration over a bitmap of at most 64 bits yields the set bits, each once,
    in increasing order, and stops. *)
Theorem C12_set_bits : forall n x, (n <= 64)%nat -> x < 2 ^ N.of_nat n ->
  set_bits x = Some (map (fun i => 2 ^ N.of_nat i) (bit_indices n x)).
Proof. exact set_bits_correct. Qed.
Print Assumptions C12_set_bits.

Example C12_example : set_bits 0x8000000000000012
  = Some [2; 16; 0x8000000000000000].
Proof. vm_compute. reflexivity. Qed.

(** C13: log2 is the floor of the logarithm, for the version using clz and for the
    portable one, and the derived leaf width [BL] is the largest such that
    2^BL elements fit in the space of an inner node. *)
Theorem C13_log2_clz : forall x, 0 < x -> x < 2^64 ->
  2 ^ log2_clz x <= x < 2 ^ (log2_clz x + 1).
Proof. exact log2_clz_spec. Qed.
Print Assumptions C13_log2_clz.

Theorem C13_log2_portable : forall x, 0 < x -> x < 2^64 ->
  exists r, log2_aux 64 x 0 = Some r /\ 2 ^ r <= x < 2 ^ (r + 1).
Proof. exact log2_aux_spec. Qed.
Print Assumptions C13_log2_portable.

Theorem C13_derive_bits_leaf : forall space sz,
  0 < sz -> sz <= space -> space < 2^64 ->
  2 ^ derive_bits_leaf space sz * sz <= space < 2 ^ (derive_bits_leaf space sz + 1) * sz.
Proof. exact derive_bits_leaf_spec. Qed.
Print Assumptions C13_derive_bits_leaf.

(** When one element does not fit in the space of an inner node the leaf width is 0:
    leaves hold one element. *)
Theorem C13_derive_bits_leaf_big : forall space sz,
  space < sz -> derive_bits_leaf space sz = 0.
Proof. exact derive_bits_leaf_big. Qed.
Print Assumptions C13_derive_bits_leaf_big.

Example C13_example : derive_bits_leaf 256 4 = 6 /\ derive_bits_leaf 256 24 = 3 /\
                      derive_bits_leaf 256 300 = 0.
Proof. repeat split; vm_compute; reflexivity. Qed.
