(** Objects in blocks: the functions that fill new nodes with elements, with every point at
    which the constructor of an element can throw (immer/detail/util.hpp,
    immer/detail/hamts/node.hpp, immer/detail/rbts/node.hpp).

    A block is the list of its element slots, [true] where an element lives.  Making an
    element where one lives, destroying one where none lives, reading one where none lives
    and giving back a block in which elements live are undefined.  Children, bitmaps and
    counts are not in this model (they are in ChampHeap). *)
From Coq Require Import List Arith Bool.
From Verif Require Import Common RcHeap RcExn.
Import ListNotations.

Notation LM := (M (list bool)).
Notation LX := (X (list bool)).

(** *** Elements *)
Definition slots (a : nat) : LM (list bool) := c <~ load a ;; mret (c_body c).
Definition set_slots (a : nat) (s : list bool) : LM unit :=
  c <~ load a ;; store a (mkCell (c_rc c) s (c_kids c)).
(** An element that is read. *)
Definition alive (a i : nat) : LM unit :=
  s <~ slots a ;; match nth_error s i with Some true => mret tt | _ => mub end.
(** A constructor that returns. *)
Definition begin_life (a i : nat) : LM unit :=
  s <~ slots a ;;
  match nth_error s i with Some false => set_slots a (update_at i true s) | _ => mub end.
(** destroy_at, util.hpp:66-78. *)
Definition destroy_at (a i : nat) : LM unit :=
  s <~ slots a ;;
  match nth_error s i with Some true => set_slots a (update_at i false s) | _ => mub end.
(** destroy and destroy_n, util.hpp:84-110: [n] elements from [i] on. *)
Fixpoint destroy_n (a i n : nat) : LM unit :=
  match n with O => mret tt | S n' => _ <~ destroy_at a i ;; destroy_n a (S i) n' end.

(** [new (p) T{x}]: the constructor may throw. *)
Definition construct (a i : nat) : LX unit := _ <- may_throw ;;; xm (begin_life a i).
(** uninitialized_copy, uninitialized_move, util.hpp:119-168, for types that are not
    trivially copyable: [n] elements of [src] from [j] on into [a] from [current] on; [out] is
    where the range starts.  The handler around the loop runs with the value [current] has. *)
Fixpoint uninitialized_from (src j a out current n : nat) : LX unit :=
  match n with
  | O => xret tt
  | S n' =>
      _ <- xm (alive src j) ;;;
      _ <- xtry (construct a current) (destroy_n a out (current - out)) ;;;
      uninitialized_from src (S j) a out (S current) n'
  end.
Definition uninitialized (src j a out n : nat) : LX unit := uninitialized_from src j a out out n.

(** *** Blocks *)
Definition allocate (n : nat) : LX nat := _ <- may_throw ;;; xm (new (repeat false n) []).
Definition deallocate (a : nat) : LM unit :=
  s <~ slots a ;; if existsb (fun b => b) s then mub else free a.

(** *** hamts/node.hpp *)
(** make_inner_n(n, nv), 256-271: the node and its values, if there are to be any. *)
Definition make_inner_nv (nv : nat) : LX (nat * option nat) :=
  p <- allocate 0 ;;;
  if (nv =? 0)%nat then xret (p, None)
  else va <- xtry (allocate nv) (deallocate p) ;;; xret (p, Some va).
(** deallocate_inner(p, n, nv), 1137-1144. *)
Definition deallocate_inner (p : nat * option nat) : LM unit :=
  _ <~ match snd p with Some va => deallocate va | None => mret tt end ;; deallocate (fst p).
(** p->values() of a node without values is not used. *)
Definition values (p : nat * option nat) : LX nat :=
  match snd p with Some va => xret va | None => xm mub end.

(** make_inner_n(n, bitmap, x), 282-294. *)
Definition make_inner_1 : LX (nat * option nat) :=
  p <- make_inner_nv 1 ;;;
  va <- values p ;;;
  _ <- xtry (construct va 0) (deallocate_inner p) ;;; xret p.
(** make_inner_n(n, idx1, x1, idx2, x2), 296-325. *)
Definition make_inner_2 : LX (nat * option nat) :=
  p <- make_inner_nv 2 ;;;
  va <- values p ;;;
  _ <- xtry (_ <- construct va 0 ;;; xtry (construct va 1) (destroy_at va 0))
            (deallocate_inner p) ;;; xret p.
(** make_collision, 338-361. *)
Definition make_collision : LX nat :=
  p <- allocate 2 ;;;
  _ <- xtry (_ <- construct p 0 ;;; xtry (construct p 1) (destroy_at p 0)) (deallocate p) ;;;
  xret p.
(** ensure_mutable_values, 363-388, when the values [src] ([nv] of them) are shared. *)
Definition ensure_mutable_values (src nv : nat) : LX nat :=
  nxt <- allocate nv ;;;
  _ <- xtry (uninitialized src 0 nxt 0 nv) (deallocate nxt) ;;; xret nxt.
(** copy_collision_insert, 390-412. *)
Definition copy_collision_insert (src n : nat) : LX nat :=
  dst <- allocate (n + 1) ;;;
  _ <- xtry (_ <- construct dst 0 ;;; xtry (uninitialized src 0 dst 1 n) (destroy_at dst 0))
            (deallocate dst) ;;; xret dst.
(** delete_collision, 1085-1092, delete_values, 1068-1073, for [n] elements. *)
Definition delete_elements (src n : nat) : LM unit := _ <~ destroy_n src 0 n ;; deallocate src.
(** move_collision_insert, 414-437. *)
Definition move_collision_insert (src n : nat) : LX nat :=
  dst <- copy_collision_insert src n ;;; _ <- xm (delete_elements src n) ;;; xret dst.
(** copy_collision_remove, 439-462; the element at [v] is left out. *)
Definition copy_collision_remove (src n v : nat) : LX nat :=
  dst <- allocate (n - 1) ;;;
  _ <- xtry (_ <- uninitialized src 0 dst 0 v ;;;
             xtry (uninitialized src (v + 1) dst v (n - v - 1)) (destroy_n dst 0 v))
            (deallocate dst) ;;; xret dst.
(** move_collision_remove, 464-488. *)
Definition move_collision_remove (src n v : nat) : LX nat :=
  dst <- copy_collision_remove src n v ;;; _ <- xm (delete_elements src n) ;;; xret dst.
(** copy_collision_replace, 490-520. *)
Definition copy_collision_replace (src n pos : nat) : LX nat :=
  dst <- allocate n ;;;
  _ <- xtry (_ <- construct dst 0 ;;;
             xtry (_ <- uninitialized src 0 dst 1 pos ;;;
                   let dstp := 1 + pos in
                   xtry (uninitialized src (pos + 1) dst dstp (n - pos - 1)) (destroy_n dst 0 dstp))
                  (destroy_at dst 0))
            (deallocate dst) ;;; xret dst.
(** copy_inner_replace_value, 560-587: all values are copied, then one is assigned, which
    may throw. *)
Definition copy_inner_replace_value (src nv : nat) : LX (nat * option nat) :=
  dst <- make_inner_nv nv ;;;
  va <- values dst ;;;
  _ <- xtry (_ <- uninitialized src 0 va 0 nv ;;; xtry may_throw (destroy_n va 0 nv))
            (deallocate_inner dst) ;;; xret dst.
(** copy_inner_replace_merged, 589-630, move_inner_replace_merged, 632-683,
    copy_inner_remove_value, 796-830 and move_inner_remove_value, 832-889, as far as values
    go: all but the one at [v]. *)
Definition copy_inner_without (src nv v : nat) : LX (nat * option nat) :=
  dst <- make_inner_nv (nv - 1) ;;;
  _ <- (if (1 <? nv)%nat then
          va <- values dst ;;;
          xtry (_ <- uninitialized src 0 va 0 v ;;;
                xtry (uninitialized src (v + 1) va v (nv - v - 1)) (destroy_n va 0 v))
               (deallocate_inner dst)
        else xret tt) ;;; xret dst.
(** copy_inner_replace_inline, 684-732, move_inner_replace_inline, 734-794,
    copy_inner_insert_value, 891-929 and move_inner_insert_value, 931-985, as far as values
    go: a new value at [v]. *)
Definition copy_inner_with (src nv v : nat) : LX (nat * option nat) :=
  dst <- make_inner_nv (nv + 1) ;;;
  va <- values dst ;;;
  _ <- xtry (_ <- (if (nv =? 0)%nat then xret tt else uninitialized src 0 va 0 v) ;;;
             xtry (_ <- construct va v ;;;
                   xtry (if (nv =? 0)%nat then xret tt else uninitialized src v va (v + 1) (nv - v))
                        (destroy_at va v))
                  (destroy_n va 0 v))
            (deallocate_inner dst) ;;; xret dst.

(** *** rbts/node.hpp *)
(** make_leaf_n(n, x) and make_leaf_e(e, x), 458-485: one element, [alloc] slots. *)
Definition make_leaf (alloc : nat) : LX nat :=
  p <- allocate alloc ;;; _ <- xtry (construct p 0) (deallocate p) ;;; xret p.
(** copy_leaf(src, n), copy_leaf_e(e, src, n), copy_leaf_n, 655-699, copy_leaf_e(e, src, idx,
    last) and copy_leaf(src, idx, last), 752-780: [n] elements from [idx] on. *)
Definition copy_leaf (alloc src idx n : nat) : LX nat :=
  dst <- allocate alloc ;;;
  _ <- xtry (uninitialized src idx dst 0 n) (deallocate dst) ;;; xret dst.
(** copy_leaf(src1, n1, src2, n2) and copy_leaf_e, 701-750. *)
Definition copy_leaf_2 (alloc src1 n1 src2 n2 : nat) : LX nat :=
  dst <- allocate alloc ;;;
  _ <- xtry (uninitialized src1 0 dst 0 n1) (deallocate dst) ;;;
  _ <- xtry (uninitialized src2 0 dst n1 n2) (_ <~ destroy_n dst 0 n1 ;; deallocate dst) ;;;
  xret dst.
(** copy_leaf_emplace, 782-795. *)
Definition copy_leaf_emplace (src n : nat) : LX nat :=
  dst <- copy_leaf (n + 1) src 0 n ;;;
  _ <- xtry (construct dst n) (_ <~ destroy_n dst 0 n ;; deallocate dst) ;;; xret dst.
