(** Bit tricks of immer/detail/hamts/bits.hpp. *)
From Coq Require Import List NArith Arith Lia Bool.
Import ListNotations.
Local Open Scope N_scope.

(** Number of set bits: what __builtin_popcount computes
    (immer/detail/hamts/bits.hpp:86-126).  This is the primitive the trees use. *)
Fixpoint pos_popcount (p : positive) : nat :=
  match p with
  | xH => 1%nat
  | xO q => pos_popcount q
  | xI q => S (pos_popcount q)
  end.
Definition popcount (x : N) : nat :=
  match x with N0 => 0%nat | Npos p => pos_popcount p end.

(** 32/64-bit wrap-around. *)
Definition w32 (x : N) : N := x mod 2^32.
Definition w64 (x : N) : N := x mod 2^64.
(** Unsigned subtraction with wrap-around. *)
Definition sub32 (x y : N) : N := w32 (x + 2^32 - y).
Definition sub64 (x y : N) : N := w64 (x + 2^64 - y).

(** immer/detail/hamts/bits.hpp:67-76, popcount_fallback(uint32_t). *)
Definition popcount_fallback32 (x0 : N) : N :=
  let x := sub32 x0 (N.land (N.shiftr x0 1) 0x55555555) in
  let x := w32 (N.land x 0x33333333 + N.land (N.shiftr x 2) 0x33333333) in
  N.shiftr (w32 (N.land (w32 (x + N.shiftr x 4)) 0xF0F0F0F * 0x1010101)) 24.

(** immer/detail/hamts/bits.hpp:78-84, popcount_fallback(uint64_t). *)
Definition popcount_fallback64 (x0 : N) : N :=
  let x := sub64 x0 (N.land (N.shiftr x0 1) 0x5555555555555555) in
  let x := w64 (N.land x 0x3333333333333333
                + N.land (N.shiftr x 2) 0x3333333333333333) in
  N.shiftr (w64 (N.land (w64 (x + N.shiftr x 4)) 0x0F0F0F0F0F0F0F0F
                 * 0x0101010101010101)) 56.

(** immer/detail/hamts/bits.hpp:137-140, clearlsbit (only called on non-zero
    bitmaps, so [bitmap - 1] does not wrap). *)
Definition clearlsbit (bm : N) : N := N.land bm (bm - 1).

(** immer/detail/hamts/bits.hpp:142-145, lsbit. *)
Definition lsbit (bm : N) : N := N.lxor bm (clearlsbit bm).

(** The range-for loop over set_bits_range (bits.hpp:128-171): dereference with
    lsbit (162), advance with clearlsbit (151-155), stop at 0 (157-160,170).
    [None] means that the fuel ran out. *)
Fixpoint set_bits_loop (fuel : nat) (bm : N) : option (list N) :=
  if bm =? 0 then Some []
  else match fuel with
       | O => None
       | S f => match set_bits_loop f (clearlsbit bm) with
                | Some l => Some (lsbit bm :: l)
                | None => None
                end
       end.

(** The bits yielded for a bitmap of at most 64 bits. *)
Definition set_bits (bm : N) : option (list N) := set_bits_loop 64 bm.

(** immer/detail/util.hpp:209-210, clz_ on a non-zero 64-bit argument
    (__builtin_clzl): the number of leading zeros. *)
Definition clz64 (x : N) : N := 64 - N.size x.

(** immer/detail/util.hpp:219-224, log2 for types with clz_, on [std::size_t]. *)
Definition log2_clz (x : N) : N := if x =? 0 then 0 else 64 - 1 - clz64 x.

(** immer/detail/util.hpp:213-217, log2_aux (the portable version); the fuel
    stands for the recursion, [None] for running out of it. *)
Fixpoint log2_aux (fuel : nat) (x r : N) : option N :=
  if x <=? 1 then Some r
  else match fuel with
       | O => None
       | S f => log2_aux f (N.shiftr x 1) (r + 1)
       end.

(** immer/detail/rbts/node.hpp:1016-1027, derive_bits_leaf_aux: [space] is
    max_sizeof_inner - sizeof_packed_leaf_n(0). *)
Definition derive_bits_leaf (space sizeof_elem : N) : N :=
  log2_clz (space / sizeof_elem).
