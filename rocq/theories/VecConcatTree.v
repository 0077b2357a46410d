(** Concatenation of flex_vectors on counted memory: the handles.
    Source: /repo/immer/detail/rbts/rrbtree.hpp; line numbers are those of that file.

    Simplifications: as in VecTree.  [supports_transient_concat] (781) is false when memory is
    counted, so only the persistent concat_trees is modelled.  Moving the elements of a tail
    does not throw.  The assertions on the total size are left out: sizes are unbounded. *)
From Coq Require Import List NArith Arith Bool.
From Verif Require Import Common NList Rrb RcHeap RcExn VecHeap VecTree VecConcat.
Import ListNotations.
Local Open Scope N_scope.

Section ConcatTree.
  Variables B BL : N.
  Context {T : Type}.
  (** What a moved-from element is. *)
  Variable gone : T -> T.

  Notation body := (vbody T).
  Notation MM := (M body).
  Notation XX := (X body).
  Notation lwidth := (lwidth BL).
  Notation hpush_tail := (hpush_tail B BL true).
  Notation htail_offset := (htail_offset BL true).

  (** The trees of both are joined, with the tail of the left one between them: 751-778, and
      the branches without transient concatenation of the functions below. *)
  Definition hjoin (x y : htree) (roff : N) : XX htree :=
    off <- xm (htail_offset x) ;;;
    let ts := ht_size x - off in
    ' (h, r) <- (if off =? 0 then
                   hconcat_trees B BL (HSingle (ht_tail x) ts) 1 HNone (ht_root y) (S (ht_lv y)) roff
                 else
                   lp <- xm (hmaybe B BL (S (ht_lv x)) (ht_root x) off) ;;;
                   _ <- xm (mlift (mk_reg (Leaf [] : node T) ts)) ;;;
                   hconcat_trees B BL lp (S (ht_lv x)) (HReg (ht_tail x) ts)
                                 (ht_root y) (S (ht_lv y)) roff) ;;;
    match h with
    | S l => _ <- xm (inc (ht_tail y)) ;;; xret (mkHT (ht_size x + ht_size y) l r (ht_tail y))
    | O => xm mub
    end.

  (** The right one is only a tail: 711-750.  concat_mut_lr_r leaves out the increment at 718;
      [kp] says whether it is there. *)
  Definition hjoin_tail (kp : bool) (x y : htree) : XX htree :=
    off <- xm (htail_offset x) ;;;
    let ts := ht_size x - off in
    let sz := ht_size x + ht_size y in
    if ts =? lwidth then
      ' (l, r) <- hpush_tail false x off (ht_tail x) ts ;;;
      _ <- xm (if kp then inc (ht_tail x) else mret tt) ;;;
      _ <- xm (inc (ht_tail y)) ;;;
      xret (mkHT sz l r (ht_tail y))
    else if ts + ht_size y <=? lwidth then
      nt <- hcopy_leaf2 (ht_tail x) ts (ht_tail y) (ht_size y) ;;;
      _ <- xm (inc (ht_root x)) ;;;
      xret (mkHT sz (ht_lv x) (ht_root x) nt)
    else
      let rem := lwidth - ts in
      at_ <- hcopy_leaf2 (ht_tail x) ts (ht_tail y) rem ;;;
      xtry (nt <- hcopy_range (ht_tail y) rem (ht_size y) ;;;
            xtry (' (l, r) <- hpush_tail false x off at_ lwidth ;;; xret (mkHT sz l r nt))
                 (delete_leaf nt (ht_size y - rem)))
           (delete_leaf at_ lwidth).

  Definition hconcat_new (kp : bool) (x y : htree) : XX htree :=
    roff <- xm (htail_offset y) ;;;
    if roff =? 0 then hjoin_tail kp x y else hjoin x y roff.

  (** concat: 703-779. *)
  Definition hconcat (x y : htree) : XX htree :=
    if ht_size x =? 0 then xm (hcopy y)
    else if ht_size y =? 0 then xm (hcopy x)
    else hconcat_new true x y.

  (** concat_mut_r 910-1050 and concat_mut_lr_r 1188-1329 give the right operand a new value;
      the assignment swaps it with the old one, which is then destroyed. *)
  Definition hprepend (kp : bool) (x y : htree) : XX htree :=
    if ht_size y =? 0 then
      z <- xm (hcopy x) ;;; _ <- xm (hdestroy B BL true y) ;;; xret z
    else if ht_size x =? 0 then xret y
    else z <- hconcat_new kp x y ;;; _ <- xm (hdestroy B BL true y) ;;; xret z.
  Definition hconcat_mut_r : htree -> htree -> XX htree := hprepend true.
  Definition hconcat_mut_lr_r : htree -> htree -> XX htree := hprepend false.

  (** Adds the first [n] elements of the leaf [a] to the leaf [tl] of [ts] elements: 802-805,
      810-813 and 1070-1077, 1082-1090.  The elements are moved when [steal] is set and nobody
      else sees [a].  Results: were they moved, did a copy throw. *)
  Definition hextend (steal : bool) (tl : nat) (ts : N) (a : nat) (n : N) : XX (bool * bool) :=
    u <- (if steal then xm (unique a) else xret false) ;;;
    threw <- (if u then xret false else xfate) ;;;
    if threw then xret (false, true)
    else
      _ <- xm (xs <~ load_leaf tl ;;
               ys <~ load_leaf a ;;
               zs <~ mlift (rtakeN n ys) ;;
               if lenN xs =? ts then
                 _ <~ put_leaf tl (xs ++ zs) ;;
                 if u then put_leaf a (map gone zs ++ dropN n ys) else mret tt
               else mub) ;;;
      xret (u, false).

  (** concat_mut_l 784-908, and concat_mut_lr_l 1052-1186 when [steal] is set.  Results: the
      left operand, how many elements of the right operand were moved from, and whether an
      exception was thrown after the left operand changed.  The handlers at 829-831 and
      1107-1109 destroy elements of the tail of the right operand. *)
  Definition hconcat_mut_l (steal : bool) (x y : htree) : XX (htree * N * bool) :=
    if ht_size x =? 0 then
      z <- xm (hcopy y) ;;; _ <- xm (hdestroy B BL true x) ;;; xret (z, 0, false)
    else if ht_size y =? 0 then xret (x, 0, false)
    else
      roff <- xm (htail_offset y) ;;;
      if roff =? 0 then
        off <- xm (htail_offset x) ;;;
        let ts := ht_size x - off in
        let sz := ht_size x + ht_size y in
        if ts =? lwidth then
          ' (l, r) <- hpush_tail true x off (ht_tail x) ts ;;;
          _ <- xm (inc (ht_tail y)) ;;;
          xret (mkHT sz l r (ht_tail y), 0, false)
        else if ts + ht_size y <=? lwidth then
          tl <- hensure_tail B BL x ts ;;;
          ' (u, threw) <- hextend steal tl ts (ht_tail y) (ht_size y) ;;;
          if threw then xret (mkHT (ht_size x) (ht_lv x) (ht_root x) tl, 0, true)
          else xret (mkHT sz (ht_lv x) (ht_root x) tl, if u then ht_size y else 0, false)
        else
          let rem := lwidth - ts in
          tl <- hensure_tail B BL x ts ;;;
          let x' := mkHT (ht_size x) (ht_lv x) (ht_root x) tl in
          ' (u, threw) <- hextend steal tl ts (ht_tail y) rem ;;;
          let k := if u then rem else 0 in
          if threw then xret (x', 0, true)
          else
            o <- xcatch (nt <- hcopy_range (ht_tail y) rem (ht_size y) ;;;
                         xtry (' (l, r) <- hpush_tail true x' off tl lwidth ;;; xret (mkHT sz l r nt))
                              (delete_leaf nt (ht_size y - rem))) ;;;
            match o with
            | Some z => xret (z, k, false)
            | None => _ <- xm (destroy_right (ht_tail y) ts (ts + rem)) ;;; xret (x', k, true)
            end
      else
        z <- hjoin x y roff ;;; _ <- xm (hdestroy B BL true x) ;;; xret (z, 0, false).
End ConcatTree.
