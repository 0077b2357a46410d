(** Taking and dropping elements of the trees of flex_vector and of its transient, for the memory
    policy with a tracing garbage collector; on the memory of GcConcat.
    Source: /repo/immer/detail/rbts/operations.hpp:892-1188, 1224-1459, rrbtree.hpp:574-701.

    As in GcVec, [al] says who makes the blocks: [Some e] for the visitors of the transient
    (slice_right_mut_visitor, slice_left_mut_visitor), [None] for those of the vector
    (slice_right_visitor, slice_left_visitor); [mu] is their argument Mutating.

    Simplifications: those of GcVec.  What only changes reference counts (dec_right_visitor,
    dec_left_visitor, dec_visitor, inc_nodes) has no effect with a garbage collector.  The position
    of the child is computed before the table of the new node is made, not after.  Asserts on the
    sizes that a table ends with (1434-1435) are not modelled.  The leaves of [std::move] and
    [std::copy] on overlapping ranges are read before they are written. *)
From Coq Require Import List NArith Arith Bool.
From Verif Require Import Common NList Rrb GcConcat GcVec.
Import ListNotations.
Local Open Scope N_scope.

Section GcSlice.
  Variables B BL : N.
  Context {T : Type}.
  Notation GG := (G T).
  Notation sh := (sh B BL).
  Notation width := (width B).
  Notation lwidth := (lwidth BL).
  (** std::is_nothrow_move_constructible<T> *)
  Variable nm : bool.
  (** What is left of an element by [x = std::move(x)]. *)
  Variable selfmv : T -> T.
  (** empty_root() and empty_tail() with size 0: rrbtree.hpp:49-67. *)
  Variable em : gtree.

  (** *** Positions *)
  (** towards_sub_oh: position.hpp:648-670, 1337-1349, 1694-1722. *)
  Definition gtowards_sub (l : nat) (g : gpos) (idx off : N) : GG (gpos * N) :=
    match g with
    | GReg a _ | GSub a _ =>
        c <~ gkid a off ;;
        lsize <~ glift (shl32 off (sh l)) ;;
        q <~ gview g ;;
        s <~ glift (this_size B BL l q) ;;
        if N.shiftl 1 (sh l) <=? s - lsize then gret (GFull c, idx - lsize)
        else p <~ gsub B BL l c (s - lsize) ;; gret (p, idx - lsize)
    | GFull a => c <~ gkid a off ;; gret (GFull c, idx - N.shiftl off (sh l))
    | GRel _ _ => gtowards B BL l g idx off
    | _ => gub
    end.

  (** *** Taking *)
  (** destroy_n: 1067-1068, rrbtree.hpp:585. *)
  Definition gdestroy (a : nat) (i j : N) : GG unit :=
    xs <~ gleaf a ;; xs' <~ glift (write xs i (blank T (j - i))) ;; gput_leaf a xs'.
  (** The child [c] at [i] as the last one of a relaxed node: 927-932, 936-940, 1108-1111. *)
  Definition gput_last (b r : nat) (i : N) (c : nat) (s : N) : GG unit :=
    _ <~ gset_kid b i c ;;
    _ <~ gset_size r i s ;;
    _ <~ gset_count r (i + 1) ;;
    if s =? 0 then gub else gret tt.
  (** The node [a] with its first [i] children, and after them [oc] with the total of the sizes: in
      place (924-932, 960-963; 1007-1010, 1034-1036) or in a copy (934-944, 965-968, 1012-1017,
      1038-1041; copy_inner_r_n, copy_inner_r, copy_inner_n: 1104-1112, 1120-1121, 1153-1155,
      1163-1164). *)
  Definition gkeep (al : option token) (mt : bool) (g : gpos) (a : nat) (i : N) (oc : option (nat * N)) : GG nat :=
    let k := match oc with Some _ => i + 1 | None => i end in
    match g with
    | GRel _ _ =>
        match al, mt with
        | Some e, true =>
            r <~ gensure_relaxed_n B a e i ;;
            _ <~ match oc with Some (c, s) => gput_last a r i c s | None => gset_count r i end ;;
            gret a
        | _, _ =>
            b <~ gmk_inner_r B al k ;;
            _ <~ gcopy_kids_r b a i ;;
            _ <~ match oc with Some (c, s) => r <~ grelaxed b ;; gput_last b r i c s | None => gret tt end ;;
            gret b
        end
    | _ =>
        if mt then
          _ <~ match oc with Some (c, _) => gset_kid a i c | None => gret tt end ;;
          gret a
        else
          b <~ gmk_inner B al k ;;
          _ <~ gcopy_kids b a i ;;
          _ <~ match oc with Some (c, _) => gset_kid b i c | None => gret tt end ;;
          gret b
    end.
  (** slice_right_mut_visitor: 892-1078; slice_right_visitor: 1080-1188.  The level and the node that
      are left, if any, and the size and the leaf of the new tail. *)
  Fixpoint gslice_right (al : option token) (mu collapse : bool) (v : nat) (g : gpos) (last : N)
    : GG (option (nat * nat) * N * nat) :=
    a <~ glift (gaddr g) ;;
    q <~ gview g ;;
    idx <~ glift (index B BL v q last) ;;
    mt <~ gmutate al mu a ;;
    match v with
    | O =>
        old <~ glift (count B BL O q) ;;
        if idx + 1 =? old then gret (None, idx + 1, a)
        else if mt then _ <~ gdestroy a (idx + 1) old ;; gret (None, idx + 1, a)
        else t <~ gcopy_leaf BL al a 0 (idx + 1) ;; gret (None, idx + 1, t)
    | S l =>
        ' (p, last') <~ gtowards B BL l g last idx ;;
        if collapse && (idx =? 0) then gslice_right al mt true l p last'
        else
          ' (next, ts, tl) <~ gslice_right al mt false l p last' ;;
          match next with
          | Some (_, c) => b <~ gkeep al mt g a idx (Some (c, last + 1 - ts)) ;; gret (Some (v, b), ts, tl)
          | None =>
              if idx =? 0 then gret (None, ts, tl)
              else if collapse && (idx =? 1) && match l with O => false | _ => true end then
                c <~ gkid a 0 ;; gret (Some (l, c), ts, tl)
              else b <~ gkeep al mt g a idx None ;; gret (Some (v, b), ts, tl)
          end
    end.

  (** take_mut: rrbtree.hpp:574-613. *)
  Definition gtake_mut (e : token) (x : gtree) (n : N) : GG gtree :=
    off <~ gtail_offset BL x ;;
    if n =? 0 then gret em
    else if gt_size x <=? n then gret x
    else if off <? n then
      u <~ gcan_mutate (gt_tail x) e ;;
      if u then
        _ <~ gdestroy (gt_tail x) (n - off) (gt_size x - off) ;;
        gret (mkGT n (gt_lv x) (gt_root x) (gt_tail x))
      else
        t <~ gcopy_leaf BL (Some e) (gt_tail x) 0 (n - off) ;;
        gret (mkGT n (gt_lv x) (gt_root x) t)
    else
      g <~ gmaybe B BL (S (gt_lv x)) (gt_root x) off ;;
      ' (o, _, tl) <~ gslice_right (Some e) true true (S (gt_lv x)) g (n - 1) ;;
      match o with
      | Some (S l, r) => gret (mkGT n l r tl)
      | Some (O, _) => gub
      | None => gret (mkGT n 0 (gt_root em) tl)
      end.
  (** take: 615-641. *)
  Definition gtake (x : gtree) (n : N) : GG gtree :=
    off <~ gtail_offset BL x ;;
    if n =? 0 then gret em
    else if gt_size x <=? n then gret x
    else if off <? n then
      t <~ gcopy_leaf BL None (gt_tail x) 0 (n - off) ;;
      gret (mkGT n (gt_lv x) (gt_root x) t)
    else
      g <~ gmaybe B BL (S (gt_lv x)) (gt_root x) off ;;
      ' (o, _, tl) <~ gslice_right None false true (S (gt_lv x)) g (n - 1) ;;
      match o with
      | Some (S l, r) => gret (mkGT n l r tl)
      | Some (O, _) => gub
      | None => gret (mkGT n 0 (gt_root em) tl)
      end.

  (** *** Dropping *)
  (** The elements of a leaf from [i] to [k] are moved to the front, by std::move, and what is behind
      them is destroyed: 1384-1388.  With [i = 0] every element is moved to itself. *)
  Definition gmove_front (a : nat) (i k : N) : GG unit :=
    xs <~ gleaf a ;;
    ys <~ glift (entries xs i k) ;;
    let ys' := if i =? 0 then map selfmv ys else ys in
    xs1 <~ glift (write xs 0 (map Some ys')) ;;
    xs2 <~ glift (write xs1 (k - i) (blank T i)) ;;
    gput_leaf a xs2.
  (** The node and the table that the result is written to: a node that can be overwritten gets a
      table that can be (1257-1259, ensure_mutable_relaxed: node.hpp:866-890) or, when it is
      regular, a table without token (1331-1336); a copy is made otherwise (1260, 1337, 1418). *)
  Definition gleft_node (al : option token) (mt : bool) (g : gpos) (a : nat) (n : N) : GG (nat * nat) :=
    match al, mt with
    | Some e, true =>
        match g with
        | GRel _ r => k <~ gcount r ;; r' <~ gensure_relaxed_n B a e k ;; gret (a, r')
        | _ =>
            r <~ gnew (mkG None (GTable None (blank N width))) ;;
            ' (_, cs) <~ ginner a ;;
            _ <~ gput_inner a (Some r) cs ;;
            gret (a, r)
        end
    | _, _ => b <~ gmk_inner_r B al n ;; r <~ grelaxed b ;; gret (b, r)
    end.
  (** The children from [i] to [k] of [a] go to [b], from 1 on: 1272-1274, 1352-1354, 1438-1440. *)
  Definition gcopy_rest (a : nat) (i k : N) (b : nat) : GG unit :=
    ' (_, cs) <~ ginner a ;;
    ks <~ glift (entries cs i k) ;;
    ' (r, ds) <~ ginner b ;;
    ds' <~ glift (write ds 1 (map Some ks)) ;;
    gput_inner b r ds'.
  (** What is written to the node [b] and the table [r]: 1270-1278 (relaxed, of the transient),
      1346-1354 (regular, of the transient), 1423-1440 (of the vector). *)
  Definition gleft_fill (al : option token) (v : nat) (g : gpos) (a : nat) (idx k : N) (b r c : nat) (s0 : N) : GG unit :=
    let sizes := gcopy_sizes B BL v g (idx + 1) (k - idx - 1) s0 r 1 in
    let rest := gcopy_rest a (idx + 1) k b in
    match al, g with
    | Some _, GRel _ _ =>
        _ <~ sizes ;; _ <~ rest ;; _ <~ gset_kid b 0 c ;; _ <~ gset_size r 0 s0 ;; _ <~ gset_count r (k - idx) ;;
        if s0 =? 0 then gub else gret tt
    | Some _, _ =>
        _ <~ gset_size r 0 s0 ;;
        if s0 =? 0 then gub
        else _ <~ sizes ;; _ <~ gset_count r (k - idx) ;; _ <~ gset_kid b 0 c ;; rest
    | None, _ =>
        _ <~ gset_count r (k - idx) ;; _ <~ gset_size r 0 s0 ;;
        if s0 =? 0 then gub
        else _ <~ sizes ;; _ <~ gset_kid b 0 c ;; rest
    end.
  (** slice_left_mut_visitor: 1224-1396; slice_left_visitor: 1398-1459.  The level and the node. *)
  Fixpoint gslice_left (al : option token) (mu collapse : bool) (v : nat) (g : gpos) (first : N) : GG (nat * nat) :=
    a <~ glift (gaddr g) ;;
    q <~ gview g ;;
    k <~ glift (count B BL v q) ;;
    mt <~ gmutate al mu a ;;
    match v with
    | O =>
        i <~ glift (index B BL O q first) ;;
        if mt && nm then _ <~ gmove_front a i k ;; gret (O, a)
        else t <~ gcopy_leaf BL al a i k ;; gret (O, t)
    | S l =>
        idx <~ glift (subindex B BL v q first) ;;
        left <~ glift (size_before B BL v q idx) ;;
        csz <~ glift (size_sbh B BL v q idx left) ;;
        ' (p, first') <~ gtowards_sub l g first idx ;;
        if collapse && match l with O => false | _ => true end && (idx + 1 =? k) then gslice_left al mt true l p first'
        else
          ' (b, r) <~ gleft_node al mt g a (k - idx) ;;
          ' (_, c) <~ gslice_left al mt false l p first' ;;
          _ <~ gleft_fill al v g a idx k b r c (csz - (first - left)) ;;
          gret (v, b)
    end.

  (** drop_mut: rrbtree.hpp:643-677. *)
  Definition gdrop_mut (e : token) (x : gtree) (n : N) : GG gtree :=
    off <~ gtail_offset BL x ;;
    if n =? 0 then gret x
    else if gt_size x <=? n then gret em
    else if n =? off then gret (mkGT (gt_size x - n) 0 (gt_root em) (gt_tail x))
    else if off <? n then
      g <~ gsub B BL O (gt_tail x) (gt_size x - off) ;;
      ' (_, tl) <~ gslice_left (Some e) true true O g (n - off) ;;
      gret (if off =? 0 then mkGT (gt_size x - n) (gt_lv x) (gt_root x) tl
            else mkGT (gt_size x - n) 0 (gt_root em) tl)
    else
      g <~ gmaybe B BL (S (gt_lv x)) (gt_root x) off ;;
      ' (w, r) <~ gslice_left (Some e) true true (S (gt_lv x)) g n ;;
      match w with
      | S l => gret (mkGT (gt_size x - n) l r (gt_tail x))
      | O => gub
      end.
  (** drop: 679-701. *)
  Definition gdrop (x : gtree) (n : N) : GG gtree :=
    if n =? 0 then gret x
    else if gt_size x <=? n then gret em
    else
      off <~ gtail_offset BL x ;;
      if n =? off then gret (mkGT (gt_size x - n) 0 (gt_root em) (gt_tail x))
      else if off <? n then
        tl <~ gcopy_leaf BL None (gt_tail x) (n - off) (gt_size x - off) ;;
        gret (mkGT (gt_size x - n) 0 (gt_root em) tl)
      else
        g <~ gmaybe B BL (S (gt_lv x)) (gt_root x) off ;;
        ' (w, r) <~ gslice_left None false true (S (gt_lv x)) g n ;;
        match w with
        | S l => gret (mkGT (gt_size x - n) l r (gt_tail x))
        | O => gub
        end.
End GcSlice.
