(** The layout of nodes in memory.

    Source: immer/detail/combine_standard_layout.hpp, immer/detail/hamts/node.hpp,
    immer/detail/rbts/node.hpp, immer/detail/arrays/node.hpp.  Offsets are those of the Itanium ABI: members in
    order, each at the next multiple of its alignment; empty bases take no room.  Pointers and size_t
    have 8 bytes, count_t and enumerations 4. *)
From Coq Require Import List NArith Bool.
From Verif Require Import LayoutSpec.
Import ListNotations.
Local Open Scope N_scope.

(** sizeof, the logarithm of alignof, is_empty. *)
Record ty := mkTy { t_size : N; t_alog : N; t_empty : bool }.
Definition ptr_t : ty := mkTy 8 3 false.
Definition word_t : ty := mkTy 8 3 false.
Definition count_t : ty := mkTy 4 2 false.
(** aligned_storage_for a type: as large as it, never empty. *)
Definition storage (t : ty) : ty := mkTy (t_size t) (t_alog t) false.
(** The next multiple of 2^a. *)
Definition up (a x : N) : N := (x + (2 ^ a - 1)) / 2 ^ a * 2 ^ a.

(** Members of a struct, none of them empty: their places from [lo] on, where they end, their alignment. *)
Fixpoint lay (lo : N) (ts : list ty) : list place :=
  match ts with
  | [] => []
  | t :: ts' => let o := up (t_alog t) lo in mkPlace o (t_size t) (t_alog t) :: lay (o + t_size t) ts'
  end.
Fixpoint lay_end (lo : N) (ts : list ty) : N :=
  match ts with [] => lo | t :: ts' => lay_end (up (t_alog t) lo + t_size t) ts' end.
Fixpoint alog_of (ts : list ty) : N :=
  match ts with [] => 0 | t :: ts' => N.max (t_alog t) (alog_of ts') end.
Definition struct_t (ts : list ty) : ty := mkTy (up (alog_of ts) (lay_end 0 ts)) (alog_of ts) false.
Definition union_t (a b : ty) : ty :=
  let m := N.max (t_alog a) (t_alog b) in mkTy (up m (N.max (t_size a) (t_size b))) m false.

(** combine_standard_layout_aux, combine_standard_layout.hpp:193-221: inherit (61-84), member
    (107-130), member_two (155-187); with the offset of each part.  The empty list stands for the
    missing Next of the last one (86-105, 132-153). *)
Fixpoint combine (ts : list ty) : ty * list N :=
  match ts with
  | [] => (mkTy 1 0 true, [])
  | t :: ts' =>
    let '(nx, offs) := combine ts' in
    let m := N.max (t_alog t) (t_alog nx) in
    if t_empty t then (mkTy (up m (t_size nx)) m (t_empty nx), 0 :: offs)
    else if t_empty nx then (mkTy (up m (t_size t)) m false, 0 :: offs)
    else let o := up (t_alog t) (t_size nx) in (mkTy (up m (o + t_size t)) m false, o :: offs)
  end.
(** The offset of the first part, and the places of the others that are not empty. *)
Definition d_off (ts : list ty) : N := hd 0 (snd (combine ts)).
Fixpoint parts (ts : list ty) (offs : list N) : list place :=
  match ts, offs with
  | t :: ts', o :: offs' => (if t_empty t then [] else [mkPlace o (t_size t) (t_alog t)]) ++ parts ts' offs'
  | _, _ => []
  end.
Definition metas (ts : list ty) : list place := match ts with [] => [] | _ :: ts' => parts ts' (tl (snd (combine ts))) end.

Definition shift (k : N) (ps : list place) : list place :=
  map (fun p => mkPlace (k + p_off p) (p_size p) (p_alog p)) ps.
(** [n] consecutive objects. *)
Fixpoint cells (o : N) (t : ty) (n : nat) : list place :=
  match n with O => [] | S n' => mkPlace o (t_size t) (t_alog t) :: cells (o + t_size t) t n' end.
(** offsetof a member of type [t] after members [ts]. *)
Definition after_off (ts : list ty) (t : ty) : N := up (t_alog t) (lay_end 0 ts).

Section Node.
(** The element, refs_t and ownee_t. *)
Variables T refs ownee : ty.
(** IMMER_TAGGED_NODE. *)
Variable tagged : bool.

(** impl_data_t over a union: hamts/node.hpp:80-88, rbts/node.hpp:81-89. *)
Definition tag_t : list ty := if tagged then [count_t] else [].
Definition impl_t (data : ty) : list ty := [struct_t (tag_t ++ [data]); refs; ownee].
Definition data_off (data : ty) : N := d_off (impl_t data) + after_off tag_t data.
(** What every node has: ownee, refs and kind. *)
Definition head (data : ty) : list place := metas (impl_t data) ++ shift (d_off (impl_t data)) (lay 0 tag_t).

(** A struct of members [ms] followed by a buffer, as one case of the union [data]. *)
Definition buf_off (data : ty) (ms : list ty) (t : ty) : N := data_off data + after_off ms t.
Definition body (data : ty) (ms : list ty) (t : ty) (n : nat) : list place :=
  head data ++ shift (data_off data) (lay 0 ms) ++ cells (buf_off data ms t) t n.

(** *** champ *)
Section Champ.
(** bitmap_t, hamts/bits.hpp:28-52. *)
Variable bitmap : ty.
(** inner_t, collision_t, data_t: hamts/node.hpp:53-78. *)
Definition ch_inner : list ty := [bitmap; bitmap; ptr_t].
Definition ch_coll : list ty := [count_t].
Definition ch_data : ty := union_t (struct_t (ch_inner ++ [ptr_t])) (struct_t (ch_coll ++ [storage T])).
(** sizeof_inner_n 105-109; sizeof_collision_n 99-103. *)
Definition ch_sizeof_inner_n (n : nat) : N := buf_off ch_data ch_inner ptr_t + 8 * N.of_nat n.
Definition ch_sizeof_collision_n (n : nat) : N := buf_off ch_data ch_coll (storage T) + t_size T * N.of_nat n.
(** What is accessed in an inner node of [n] children and a collision of [n] elements. *)
Definition ch_inner_places (n : nat) : list place := body ch_data ch_inner ptr_t n.
Definition ch_coll_places (n : nat) : list place := body ch_data ch_coll (storage T) n.
(** sizeof(node_t). *)
Definition ch_sizeof_node : N := t_size (fst (combine (impl_t ch_data))).
End Champ.
(** values_t 59-64, sizeof_values_n 92-97; also arrays/node.hpp:34-48. *)
Definition vals_t : list ty := [struct_t [storage T]; refs; ownee].
Definition sizeof_values_n (n : nat) : N :=
  N.max (t_size (fst (combine vals_t))) (d_off vals_t + t_size T * N.of_nat n).
Definition vals_places (n : nat) : list place := metas vals_t ++ cells (d_off vals_t) (storage T) n.

(** *** rbts *)
Section Rbts.
(** embed_relaxed, rbts/node.hpp:41; branches<B>, branches<BL>. *)
Variable embed : bool.
Variables width lwidth : nat.
(** keep_headroom, 96. *)
Definition headroom : bool := negb (t_empty refs).
(** inner_t, leaf_t, data_t: 64-79. *)
Definition rb_inner : list ty := [ptr_t].
Definition rb_data : ty := union_t (struct_t (rb_inner ++ [ptr_t])) (struct_t [storage T]).
(** relaxed_data_t, relaxed_t: 49-62. *)
Definition rel_data : ty := struct_t (count_t :: repeat word_t width).
Definition rel_t : list ty := if embed then [rel_data] else [rel_data; refs; ownee].
Definition rel_off : N := d_off rel_t + after_off [count_t] word_t.
(** sizeof_packed_[..]: 98-120. *)
Definition packed_leaf (n : nat) : N := buf_off rb_data [] (storage T) + t_size T * N.of_nat n.
Definition packed_inner (n : nat) : N := buf_off rb_data rb_inner ptr_t + 8 * N.of_nat n.
Definition packed_relaxed (n : nat) : N := rel_off + 8 * N.of_nat n.
Definition packed_inner_r (n : nat) : N := if embed then packed_inner n + packed_relaxed n else packed_inner n.
(** sizeof_[..]_n: 134-152. *)
Definition sizeof_leaf_n (n : nat) : N := if headroom then packed_leaf lwidth else packed_leaf n.
Definition sizeof_inner_n (n : nat) : N := if headroom then packed_inner width else packed_inner n.
Definition sizeof_relaxed_n (n : nat) : N := if headroom then packed_relaxed width else packed_relaxed n.
Definition sizeof_inner_r_n (n : nat) : N := if headroom then packed_inner_r width else packed_inner_r n.
(** The objects a node made for [n] may come to hold. *)
Definition room (w n : nat) : nat := if headroom then w else n.
Definition leaf_places (n : nat) : list place := body rb_data [] (storage T) (room lwidth n).
Definition inner_places (n : nat) : list place := body rb_data rb_inner ptr_t (room width n).
Definition relaxed_places (n : nat) : list place :=
  metas rel_t ++ shift (d_off rel_t) (lay 0 [count_t]) ++ cells rel_off word_t (room width n).
(** make_inner_r_n, 232-256: an embedded table is placed at sizeof_inner_n(n). *)
Definition inner_r_places (n : nat) : list place :=
  inner_places n ++ (if embed then shift (sizeof_inner_n n) (relaxed_places n) else []).
Definition rb_sizeof_node : N := t_size (fst (combine (impl_t rb_data))).
End Rbts.
End Node.
