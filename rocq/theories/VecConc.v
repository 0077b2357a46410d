(** The operations of immer/detail/rbts/{node,operations,rbtree,rrbtree}.hpp as programs of
    threads: the functions of VecHeap, VecTree and VecProg, one access to the memory per step.

    Simplifications: those of VecHeap; nothing throws here.  A block is read in one step: the
    contents of a block that several threads can reach do not change.  Concatenation is left
    out. *)
From Coq Require Import List NArith Arith Bool.
From Verif Require Import Common NList Rrb RcHeap Conc VecHeap VecTree VecProgSpec VecProg.
Import ListNotations.
Local Open Scope N_scope.

Section VecConc.
  Variables B BL : N.
  Context {T : Type}.
  (** std::is_nothrow_move_constructible. *)
  Variable nm : bool.

  Notation PP := (prog (vbody T)).
  Notation node := (node T).
  Notation pos := (pos T).
  Notation sh := (sh B BL).
  Notation width := (width B).
  Notation lwidth := (lwidth BL).
  Notation lmask := (lmask BL).
  Notation mask := (mask B).

  (** *** Access *)
  (** leaf(), inner(), relaxed() and its sizes: node.hpp:150-187. *)
  Definition t_leaf (a : nat) : PP (list T) :=
    c <-- ld a ;; match c_body c with VLeaf xs => Done xs | _ => Fail end.
  Definition t_inner (a : nat) : PP (option nat * list nat) :=
    c <-- ld a ;;
    match c_body c, c_kids c with
    | VInner, cs => Done (None, cs)
    | VRel, r :: cs => Done (Some r, cs)
    | _, _ => Fail
    end.
  Definition t_table (r : nat) : PP (nat * list N) :=
    c <-- ld r ;; match c_body c with VTable v sz => Done (v, sz) | _ => Fail end.
  (** Writes to those. *)
  Definition t_put_leaf (a : nat) (xs : list T) : PP unit :=
    _ <-- t_leaf a ;; wr a (VLeaf xs) [].
  Definition t_put_inner (a : nat) (r : option nat) (cs : list nat) : PP unit :=
    _ <-- t_inner a ;;
    match r with None => wr a VInner cs | Some r => wr a VRel (r :: cs) end.
  Definition t_put_table (r : nat) (sz : list N) : PP unit :=
    ' (v, _) <-- t_table r ;; wr r (VTable v sz) [].
  (** [node->inner()[i] = child] for the last child, [i] children being kept. *)
  Definition t_put_last (a : nat) (i : N) (child : nat) : PP unit :=
    ' (r, cs) <-- t_inner a ;; cs' <-- plift (rtakeN i cs) ;; t_put_inner a r (cs' ++ [child]).
  (** [node->inner()[i] = child] over a child. *)
  Definition t_put_kid (a : nat) (i : N) (child : nat) : PP unit :=
    ' (r, cs) <-- t_inner a ;; _ <-- plift (rnthN cs i) ;; t_put_inner a r (updN i child cs).
  (** Only the first [i] children stay. *)
  Definition t_cut_kids (a : nat) (i : N) : PP unit :=
    ' (r, cs) <-- t_inner a ;; cs' <-- plift (rtakeN i cs) ;; t_put_inner a r cs'.
  (** [relaxed->d.sizes[i] = s; relaxed->d.count = i + 1;] *)
  Definition t_put_size (r : nat) (i : N) (s : N) : PP unit :=
    ' (_, sz) <-- t_table r ;; sz' <-- plift (rtakeN i sz) ;; t_put_table r (sz' ++ [s]).
  (** [relaxed->d.count = i;] *)
  Definition t_cut_sizes (r : nat) (i : N) : PP unit :=
    ' (_, sz) <-- t_table r ;; sz' <-- plift (rtakeN i sz) ;; t_put_table r sz'.

  (** *** Allocation and deletion of nodes *)
  (** make_inner_n, make_inner_e: node.hpp:196-228. *)
  Definition t_make_inner : PP nat := mk VInner [].
  (** make_inner_r_n, make_inner_r_e: node.hpp:230-254, 273-301. *)
  Definition t_make_inner_r (v : nat) : PP nat :=
    n <-- mk VInner [] ;; r <-- mk (VTable v []) [] ;; _ <-- t_put_inner n (Some r) [] ;; Done n.
  (** make_inner_sr_e: node.hpp:303-318. *)
  Definition t_make_inner_sr (r : nat) : PP nat := _ <-- up r ;; mk VRel [r].
  (** make_inner_sr_n with its assertion: node.hpp:256-271. *)
  Definition t_make_inner_sr_n (n : N) (r : nat) : PP nat :=
    ' (_, sz) <-- t_table r ;; if n <=? lenN sz then t_make_inner_sr r else Fail.
  (** make_leaf_n(1, x), make_leaf_e(e, x): node.hpp:454-485. *)
  Definition t_make_leaf (x : T) : PP nat := mk (VLeaf [x]) [].

  (** delete_inner(_e): node.hpp:797-813. *)
  Definition t_delete_inner (a : nat) : PP unit :=
    ' (r, _) <-- t_inner a ;; match r with None => fr a | Some _ => Fail end.
  (** [if (refs(r).dec()) heap::deallocate(..., r)]: node.hpp:828-834, 884-886. *)
  Definition t_drop_table (r : nat) : PP unit :=
    last <-- dn r ;; if last : bool then fr r else Done tt.
  (** delete_inner_r(_e): node.hpp:822-847. *)
  Definition t_delete_inner_r (a : nat) : PP unit :=
    ' (r, _) <-- t_inner a ;;
    match r with None => Fail | Some r => _ <-- t_drop_table r ;; fr a end.
  (** delete_leaf: node.hpp:849-856. *)
  Definition t_delete_leaf (a : nat) (n : N) : PP unit :=
    xs <-- t_leaf a ;; if lenN xs =? n then fr a else Fail.
  (** detail::destroy_n(leaf() + n, k - n). *)
  Definition t_destroy_right (a : nat) (n k : N) : PP unit :=
    xs <-- t_leaf a ;;
    if lenN xs =? k then ys <-- plift (rtakeN n xs) ;; t_put_leaf a ys else Fail.

  (** make_path(_e): node.hpp:487-521. *)
  Fixpoint t_make_path (v : nat) (tl : nat) : PP nat :=
    match v with
    | O => Done tl
    | S v' =>
        n <-- t_make_inner ;;
        c <-- t_make_path v' tl ;;
        _ <-- t_put_inner n None [c] ;;
        Done n
    end.

  (** do_copy_inner, do_copy_inner_sr: node.hpp:548-557, 623-635. *)
  Definition t_copy_inner (dst src : nat) (n : N) (more : list nat) : PP unit :=
    ' (_, cs) <-- t_inner src ;;
    cs' <-- plift (rtakeN n cs) ;;
    _ <-- each up cs' ;;
    ' (r, _) <-- t_inner dst ;;
    t_put_inner dst r (cs' ++ more).
  (** do_copy_inner_replace(_sr): node.hpp:559-571, 637-653. *)
  Definition t_copy_inner_replace (dst src : nat) (n off : N) (child : nat) : PP unit :=
    ' (_, cs) <-- t_inner src ;;
    left <-- plift (rtakeN off cs) ;;
    right <-- plift (rsliceN (off + 1) n cs) ;;
    _ <-- each up left ;;
    _ <-- each up right ;;
    ' (r, _) <-- t_inner dst ;;
    t_put_inner dst r (left ++ child :: right).
  (** do_copy_inner_r: node.hpp:594-604. *)
  Definition t_copy_inner_r (dst src : nat) (n : N) (more : list nat) (msz : list N) : PP unit :=
    ' (sr, cs) <-- t_inner src ;;
    ' (dr, _) <-- t_inner dst ;;
    match sr, dr with
    | Some sr, Some dr =>
        cs' <-- plift (rtakeN n cs) ;;
        _ <-- each up cs' ;;
        _ <-- t_put_inner dst (Some dr) (cs' ++ more) ;;
        ' (_, sz) <-- t_table sr ;;
        sz' <-- plift (rtakeN n sz) ;;
        t_put_table dr (sz' ++ msz)
    | _, _ => Fail
    end.
  (** The copy of elements into a new leaf: copy_leaf, copy_leaf_e, copy_leaf_n,
      node.hpp:655-700, 739-780. *)
  Definition t_copy_leaf (a : nat) (n : N) : PP nat :=
    xs <-- t_leaf a ;; ys <-- plift (rtakeN n xs) ;; mk (VLeaf ys) [].
  Definition t_copy_range (a : nat) (i j : N) : PP nat :=
    xs <-- t_leaf a ;; ys <-- plift (rsliceN i j xs) ;; mk (VLeaf ys) [].
  (** copy_leaf_emplace: node.hpp:782-795. *)
  Definition t_copy_emplace (a : nat) (n : N) (x : T) : PP nat :=
    xs <-- t_leaf a ;; ys <-- plift (rtakeN n xs) ;; mk (VLeaf (ys ++ [x])) [].

  (** ensure_mutable_relaxed_n: node.hpp:919-943; ensure_mutable_relaxed (866-890) copies all
      the sizes. *)
  Definition t_ensure_relaxed (a : nat) (n : option N) : PP nat :=
    ' (r, cs) <-- t_inner a ;;
    match r with
    | None => Fail
    | Some r =>
        u <-- uq r ;;
        if u : bool then Done r
        else
          ' (v, sz) <-- t_table r ;;
          sz' <-- plift (match n with Some n => rtakeN n sz | None => Ok sz end) ;;
          d <-- mk (VTable v sz') [] ;;
          _ <-- t_drop_table r ;;
          _ <-- t_put_inner a (Some d) cs ;;
          Done d
    end.

  (** *** Positions: as in VecHeap *)
  Definition t_view (p : hpos) : PP pos :=
    match p with
    | HFull _ => Done (PFull (Leaf []))
    | HReg _ s => Done (PReg (Leaf []) s)
    | HSub _ s => Done (PSub (Leaf []) s)
    | HRel _ r => ' (_, sz) <-- t_table r ;; Done (PRel (Leaf []) sz)
    | HSingle _ c => Done (PSingle (Leaf []) c)
    | HNone => Done PNone
    end.
  (** visit_maybe_relaxed_sub: position.hpp:1827-1841. *)
  Definition t_maybe (v : nat) (a : nat) (s : N) : PP hpos :=
    ' (r, _) <-- t_inner a ;;
    match r with
    | Some r =>
        ' (_, sz) <-- t_table r ;;
        t <-- plift (last_of sz) ;;
        if t =? s then Done (HRel a r) else Fail
    | None => _ <-- plift (mk_sub B BL v (Leaf [] : node) s) ;; Done (HSub a s)
    end.
  (** The position of a child of level [v]: position.hpp:1600-1841. *)
  Definition t_open (v : nat) (k : hkid) : PP hpos :=
    match k with
    | KFull c => Done (HFull c)
    | KReg c s => _ <-- plift (mk_reg (Leaf [] : node) s) ;; Done (HReg c s)
    | KSub c s => _ <-- plift (mk_sub B BL v (Leaf [] : node) s) ;; Done (HSub c s)
    | KMaybe c s =>
        match v with
        | O => _ <-- plift (mk_sub B BL O (Leaf [] : node) s) ;; Done (HSub c s)
        | S _ => t_maybe v c s
        end
    end.

  (** *** dec_visitor and its kin: operations.hpp:516-582, 859-890, 1190-1222 *)
  Fixpoint t_dec (v : nat) (hp : hpos) : PP unit :=
    a <-- plift (haddr hp) ;;
    last <-- dn a ;;
    if last : bool then
      match v with
      | O => p <-- t_view hp ;; k <-- plift (count B BL O p) ;; t_delete_leaf a k
      | S l =>
          p <-- t_view hp ;;
          ' (_, cs) <-- t_inner a ;;
          ks <-- plift (heach B BL l p cs) ;;
          _ <-- each (fun k => q <-- t_open l k ;; t_dec l q) ks ;;
          match hp with HRel _ _ => t_delete_inner_r a | _ => t_delete_inner a end
      end
    else Done tt.
  (** A visit by dec_visitor of children: operations.hpp:516-549. *)
  Definition t_dec_kid (l : nat) (k : hkid) : PP unit := q <-- t_open l k ;; t_dec l q.
  Definition t_decs (l : nat) (ks : list hkid) : PP unit := each (t_dec_kid l) ks.
  (** dec_leaf: 551-555; dec_inner: 557-561. *)
  Definition t_dec_leaf (a : nat) (n : N) : PP unit := t_dec_kid O (KSub a n).
  Definition t_dec_inner (v : nat) (a : nat) (s : N) : PP unit := q <-- t_maybe v a s ;; t_dec v q.
  (** dec_empty_regular: 575-579. *)
  Definition t_dec_empty (a : nat) : PP unit :=
    last <-- dn a ;; if last : bool then t_delete_inner a else Done tt.
  (** dec_right_visitor: 859-890; dec_left_visitor: 1190-1222. *)
  Definition t_dec_right (l : nat) (hp : hpos) (idx : N) : PP unit :=
    a <-- plift (haddr hp) ;;
    last <-- dn a ;;
    if last : bool then
      p <-- t_view hp ;;
      ' (_, cs) <-- t_inner a ;;
      ks <-- plift (heach_right B BL l p cs idx) ;;
      _ <-- t_decs l ks ;;
      match hp with HRel _ _ => t_delete_inner_r a | _ => t_delete_inner a end
    else Done tt.
  Definition t_dec_left (l : nat) (hp : hpos) (idx : N) : PP unit :=
    a <-- plift (haddr hp) ;;
    last <-- dn a ;;
    if last : bool then
      p <-- t_view hp ;;
      ' (_, cs) <-- t_inner a ;;
      ks <-- plift (heach_left B BL l p cs idx) ;;
      _ <-- t_decs l ks ;;
      match hp with HRel _ _ => t_delete_inner_r a | _ => t_delete_inner a end
    else Done tt.
  (** [if (b) m]. *)
  Definition when (b : bool) (m : PP unit) : PP unit := if b then m else Done tt.
  (** [Mutating && node->can_mutate(e)]. *)
  Definition t_mine (mutating : bool) (a : nat) : PP bool := if mutating then uq a else Done false.

  (** *** update_visitor: operations.hpp:457-514 *)
  Fixpoint t_update (v : nat) (hp : hpos) (idx : N) (fn : T -> T) : PP nat :=
    a <-- plift (haddr hp) ;;
    p <-- t_view hp ;;
    off <-- plift (index B BL v p idx) ;;
    k <-- plift (count B BL v p) ;;
    match v with
    | O =>
        n <-- t_copy_leaf a k ;;
        xs <-- t_leaf n ;; x <-- plift (rnthN xs off) ;;
        _ <-- t_put_leaf n (updN off (fn x) xs) ;;
        Done n
    | S l =>
        n <-- match hp with HRel _ r => t_make_inner_sr_n k r | _ => t_make_inner end ;;
        ' (_, cs) <-- t_inner a ;;
        ' (kd, idx') <-- plift (htowards B BL l p cs idx off) ;;
        q <-- t_open l kd ;;
        c <-- t_update l q idx' fn ;;
        _ <-- t_copy_inner_replace n a k off c ;;
        Done n
    end.

  (** *** get_mut_visitor: operations.hpp:584-663 *)
  Fixpoint t_get_mut (v : nat) (hp : hpos) (idx : N) : PP (nat * (nat * N)) :=
    a <-- plift (haddr hp) ;;
    p <-- t_view hp ;;
    off <-- plift (index B BL v p idx) ;;
    k <-- plift (count B BL v p) ;;
    u <-- uq a ;;
    match v with
    | O =>
        if u : bool then Done (a, (a, off))
        else n <-- t_copy_leaf a k ;; _ <-- t_dec O hp ;; Done (n, (n, off))
    | S l =>
        ' (_, cs) <-- t_inner a ;;
        ' (kd, idx') <-- plift (htowards B BL l p cs idx off) ;;
        if u : bool then
          q <-- t_open l kd ;;
          ' (c, e) <-- t_get_mut l q idx' ;;
          _ <-- t_put_kid a off c ;;
          Done (a, e)
        else
          n <-- match hp with HRel _ r => t_make_inner_sr r | _ => t_make_inner end ;;
          _ <-- t_copy_inner n a k [] ;;
          q <-- t_open l kd ;;
          ' (c, e) <-- t_get_mut l q idx' ;;
          _ <-- t_put_kid n off c ;;
          _ <-- t_dec v hp ;;
          Done (n, e)
    end.

  (** *** push_tail_mut_visitor: operations.hpp:665-777; with [mutating] false this is also
      push_tail_visitor (779-857). *)
  Fixpoint t_push (mutating : bool) (v : nat) (hp : hpos) (tl : nat) (ts : N) : PP (option nat) :=
    match v with
    | O => Fail
    | S l =>
        a <-- plift (haddr hp) ;;
        p <-- t_view hp ;;
        ' (_, cs) <-- t_inner a ;;
        match p with
        | PRel _ sz =>
            let idx := lenN sz - 1 in
            children <-- plift (size_at B BL v p idx) ;;
            mutate <-- t_mine mutating a ;;
            let finish new_idx new_child :=
              if mutate : bool then
                t <-- t_ensure_relaxed a (Some new_idx) ;;
                _ <-- t_put_last a new_idx new_child ;;
                p' <-- t_view hp ;;
                s <-- plift (psize B BL v p') ;;
                _ <-- t_put_size t new_idx (s + ts) ;;
                Done (Some a)
              else
                n <-- t_make_inner_r v ;;
                p' <-- t_view hp ;;
                s <-- plift (psize B BL v p') ;;
                _ <-- t_copy_inner_r n a new_idx [new_child] [s + ts] ;;
                _ <-- when mutating (t_dec v hp) ;;
                Done (Some n) in
            if (children =? N.shiftl 1 (sh l)) || match l with O => true | _ => false end then
              if width <=? idx + 1 then Done None
              else c <-- t_make_path l tl ;; finish (idx + 1) c
            else if width <=? idx then Done None
            else
              x <-- plift (rnthN cs idx) ;;
              q <-- t_open l (KMaybe x children) ;;
              r <-- t_push mutate l q tl ts ;;
              match r with
              | Some c => finish idx c
              | None =>
                  if idx + 1 <? width then c <-- t_make_path l tl ;; finish (idx + 1) c
                  else Done None
              end
        | PReg _ s | PSub _ s =>
            if negb (N.land s lmask =? 0) then Fail
            else
              idx <-- plift (index B BL v p (s - 1)) ;;
              new_idx <-- plift (index B BL v p (s + lwidth - 1)) ;;
              mutate <-- t_mine mutating a ;;
              let child :=
                if idx =? new_idx then
                  x <-- plift (rnthN cs idx) ;;
                  q <-- t_open l (KReg x s) ;;
                  r <-- t_push mutate l q tl ts ;;
                  match r with Some c => Done c | None => Fail end
                else t_make_path l tl in
              if mutate : bool then
                c <-- child ;;
                _ <-- t_put_last a new_idx c ;;
                Done (Some a)
              else
                n <-- t_make_inner ;;
                c <-- child ;;
                _ <-- t_copy_inner n a new_idx [c] ;;
                _ <-- when mutating (t_dec v hp) ;;
                Done (Some n)
        | _ => Fail
        end
    end.

  (** *** slice_right_mut_visitor: operations.hpp:892-1078; with [mutating] false this is also
      slice_right_visitor (1080-1188). *)
  Fixpoint t_slice_right (collapse mutating : bool) (v : nat) (hp : hpos) (last : N)
    : PP (option (nat * nat) * N * nat) :=
    a <-- plift (haddr hp) ;;
    p <-- t_view hp ;;
    match v with
    | O =>
        old <-- plift (count B BL O p) ;;
        i <-- plift (index B BL O p last) ;;
        mutate <-- t_mine mutating a ;;
        if i + 1 =? old then
          _ <-- when (negb mutating) (up a) ;; Done (None, i + 1, a)
        else if mutate : bool then
          _ <-- t_destroy_right a (i + 1) old ;; Done (None, i + 1, a)
        else
          n <-- t_copy_leaf a (i + 1) ;;
          _ <-- when mutating (t_dec O hp) ;;
          Done (None, i + 1, n)
    | S l =>
        idx <-- plift (index B BL v p last) ;;
        mutate <-- t_mine mutating a ;;
        ' (_, cs) <-- t_inner a ;;
        ' (kd, last') <-- plift (htowards B BL l p cs last idx) ;;
        q <-- t_open l kd ;;
        if collapse && (idx =? 0) then
          r <-- t_slice_right true mutate l q last' ;;
          _ <-- when mutating (t_dec_right l hp 1) ;;
          Done r
        else
          ' (next, ts, tl) <-- t_slice_right false mutate l q last' ;;
          match next with
          | Some (_, c) =>
              match hp with
              | HRel _ _ =>
                  if mutate : bool then
                    t <-- t_ensure_relaxed a (Some idx) ;;
                    p' <-- t_view hp ;;
                    ks <-- plift (heach_right B BL l p' cs (idx + 1)) ;;
                    _ <-- t_decs l ks ;;
                    _ <-- t_put_last a idx c ;;
                    _ <-- t_put_size t idx (last + 1 - ts) ;;
                    Done (Some (v, a), ts, tl)
                  else
                    n <-- t_make_inner_r v ;;
                    _ <-- t_copy_inner_r n a idx [c] [last + 1 - ts] ;;
                    _ <-- when mutating (t_dec v hp) ;;
                    Done (Some (v, n), ts, tl)
              | _ =>
                  if mutate : bool then
                    ks <-- plift (heach_right B BL l p cs (idx + 1)) ;;
                    _ <-- t_decs l ks ;;
                    _ <-- t_put_last a idx c ;;
                    Done (Some (v, a), ts, tl)
                  else
                    n <-- t_make_inner ;;
                    _ <-- t_copy_inner n a idx [c] ;;
                    _ <-- when mutating (t_dec v hp) ;;
                    Done (Some (v, n), ts, tl)
              end
          | None =>
              if idx =? 0 then
                _ <-- when mutating (t_dec_right l hp 1) ;; Done (None, ts, tl)
              else if collapse && (idx =? 1) && match l with O => false | _ => true end then
                ' (_, cs) <-- t_inner a ;;
                c <-- plift (rnthN cs 0) ;;
                _ <-- when (negb mutate) (up c) ;;
                _ <-- when mutating (t_dec_right l hp 2) ;;
                Done (Some (l, c), ts, tl)
              else
                match hp with
                | HRel _ _ =>
                    if mutate : bool then
                      p' <-- t_view hp ;;
                      ks <-- plift (heach_right B BL l p' cs (idx + 1)) ;;
                      _ <-- t_decs l ks ;;
                      t <-- t_ensure_relaxed a (Some idx) ;;
                      _ <-- t_cut_sizes t idx ;;
                      _ <-- t_cut_kids a idx ;;
                      Done (Some (v, a), ts, tl)
                    else
                      n <-- t_make_inner_r v ;;
                      _ <-- t_copy_inner_r n a idx [] [] ;;
                      _ <-- when mutating (t_dec v hp) ;;
                      Done (Some (v, n), ts, tl)
                | _ =>
                    if mutate : bool then
                      ks <-- plift (heach_right B BL l p cs (idx + 1)) ;;
                      _ <-- t_decs l ks ;;
                      _ <-- t_cut_kids a idx ;;
                      Done (Some (v, a), ts, tl)
                    else
                      n <-- t_make_inner ;;
                      _ <-- t_copy_inner n a idx [] ;;
                      _ <-- when mutating (t_dec v hp) ;;
                      Done (Some (v, n), ts, tl)
                end
          end
    end.

  (** *** slice_left_mut_visitor: operations.hpp:1224-1396; with [mutating] false this is also
      slice_left_visitor (1398-1459). *)
  Fixpoint t_slice_left (collapse mutating : bool) (v : nat) (hp : hpos) (first : N) : PP (nat * nat) :=
    a <-- plift (haddr hp) ;;
    p <-- t_view hp ;;
    k <-- plift (count B BL v p) ;;
    match v with
    | O =>
        i <-- plift (index B BL O p first) ;;
        mutate <-- t_mine mutating a ;;
        if mutate && nm then
          xs <-- t_leaf a ;;
          if lenN xs =? k then
            ys <-- plift (rsliceN i k xs) ;; _ <-- t_put_leaf a ys ;; Done (O, a)
          else Fail
        else
          n <-- t_copy_range a i k ;;
          _ <-- when mutating (t_dec O hp) ;;
          Done (O, n)
    | S l =>
        idx <-- plift (subindex B BL v p first) ;;
        left <-- plift (size_before B BL v p idx) ;;
        csz <-- plift (size_sbh B BL v p idx left) ;;
        mutate <-- t_mine mutating a ;;
        ' (_, cs) <-- t_inner a ;;
        ' (kd, first') <-- plift (htowards_sub B BL l p cs first idx) ;;
        if collapse && match l with O => false | _ => true end && (idx + 1 =? k) then
          q <-- t_open l kd ;;
          r <-- t_slice_left true mutate l q first' ;;
          _ <-- (if mutate : bool then t_dec_left l hp idx else when mutating (t_dec v hp)) ;;
          Done r
        else
          n <-- (if mutate : bool then
                   _ <-- match hp with
                         | HRel _ _ => t_ensure_relaxed a None
                         | _ => r <-- mk (VTable v []) [] ;; _ <-- t_put_inner a (Some r) cs ;; Done r
                         end ;;
                   Done a
                 else t_make_inner_r v) ;;
          let s0 := csz - (first - left) in
          q <-- t_open l kd ;;
          ' (_, c) <-- t_slice_left false mutate l q first' ;;
          _ <-- when mutate (p' <-- t_view hp ;;
                             ks <-- plift (heach_left B BL l p' cs idx) ;;
                             t_decs l ks) ;;
          p' <-- t_view hp ;;
          sz' <-- plift (copy_sizes B BL v p' (idx + 1) (k - idx - 1) s0) ;;
          cs' <-- plift (rsliceN (idx + 1) k cs) ;;
          ' (r, _) <-- t_inner n ;;
          _ <-- match r with
                | Some r => t_put_table r (s0 :: sz')
                | None => Fail
                end ;;
          _ <-- t_put_inner n r (c :: cs') ;;
          _ <-- (if mutate : bool then Done tt else _ <-- each up cs' ;; when mutating (t_dec v hp)) ;;
          Done (v, n)
    end.

  (** ** The containers: rrbtree.hpp (and rbtree.hpp), as in VecTree *)
  Section Tree.
  Variable rx : bool.
  Variables er et : nat.
  (** Default constructor 101-108 over empty_root, empty_tail 49-67 (rbtree 87-94, 35-53). *)
  Definition t_empty : PP htree := _ <-- up er ;; _ <-- up et ;; Done (mkHT 0 0 er et).
  (** Copy constructor 119-123 over inc 154-158 (rbtree 105-109, 140-144). *)
  Definition t_copy (x : htree) : PP htree :=
    _ <-- up (ht_root x) ;; _ <-- up (ht_tail x) ;; Done x.
  (** tail_offset 165-173; rbtree 151. *)
  Definition t_tail_offset (x : htree) : PP N :=
    let off := if ht_size x =? 0 then 0 else N.ldiff (ht_size x - 1) lmask in
    if rx then
      ' (r, _) <-- t_inner (ht_root x) ;;
      match r with
      | Some r => ' (_, sz) <-- t_table r ;; plift (last_of sz)
      | None => Done off
      end
    else Done off.
  (** The position of the root: rrbtree.hpp:175-246, rbtree.hpp:153-215. *)
  Definition t_root_pos (x : htree) (off : N) : PP hpos :=
    if rx then t_maybe (S (ht_lv x)) (ht_root x) off
    else _ <-- plift (mk_sub B BL (S (ht_lv x)) (Leaf [] : node) off) ;; Done (HSub (ht_root x) off).
  (** Destructor 152 over dec 160, traverse 175-190 (rbtree 138, 146, 153-166). *)
  Definition t_destroy (x : htree) : PP unit :=
    off <-- t_tail_offset x ;;
    _ <-- (if 0 <? off then q <-- t_root_pos x off ;; t_dec (S (ht_lv x)) q
           else t_dec_empty (ht_root x)) ;;
    t_dec_leaf (ht_tail x) (ht_size x - off).
  (** [*this = {}]. *)
  Definition t_clear (x : htree) : PP htree := y <-- t_empty ;; _ <-- t_destroy x ;; Done y.

  (** push_tail 333-382 and, [mutating], push_tail_mut 384-435; in rbtree inside push_back
      317-359 and push_back_mut 271-315. *)
  Definition t_grow (mutating relaxed : bool) (x : htree) (off : N) (tl : nat) (ts : N) : PP (nat * nat) :=
    n <-- (if relaxed then t_make_inner_r (S (S (ht_lv x))) else t_make_inner) ;;
    c <-- t_make_path (S (ht_lv x)) tl ;;
    _ <-- when (negb mutating) (up (ht_root x)) ;;
    _ <-- (if relaxed then
             if (0 <? off) && (0 <? ts) then
               ' (r, _) <-- t_inner n ;;
               match r with
               | Some r => _ <-- t_put_table r [off; off + ts] ;;
                           t_put_inner n (Some r) [ht_root x; c]
               | None => Fail
               end
             else Fail
           else t_put_inner n None [ht_root x; c]) ;;
    Done (S (ht_lv x), n).
  Definition t_push_tail (mutating : bool) (x : htree) (off : N) (tl : nat) (ts : N) : PP (nat * nat) :=
    ' (r, _) <-- (if rx then t_inner (ht_root x) else Done (None, [])) ;;
    match r with
    | Some r =>
        o <-- t_push mutating (S (ht_lv x)) (HRel (ht_root x) r) tl ts ;;
        match o with
        | Some n => Done (ht_lv x, n)
        | None => t_grow mutating true x off tl ts
        end
    | None =>
        if off =? N.shiftl width (sh (ht_lv x)) then t_grow mutating false x off tl ts
        else if 0 <? off then
          _ <-- plift (mk_sub B BL (S (ht_lv x)) (Leaf [] : node) off) ;;
          o <-- t_push mutating (S (ht_lv x)) (HSub (ht_root x) off) tl 0 ;;
          match o with Some n => Done (ht_lv x, n) | None => Fail end
        else
          n <-- t_make_path (S (ht_lv x)) tl ;;
          _ <-- when mutating (t_dec_empty (ht_root x)) ;;
          Done (ht_lv x, n)
    end.
  (** push_back 470-490; rbtree 317-359. *)
  Definition t_push_back (x : htree) (v : T) : PP htree :=
    off <-- t_tail_offset x ;;
    let ts := ht_size x - off in
    if ts <? lwidth then
      tl <-- t_copy_emplace (ht_tail x) ts v ;;
      _ <-- up (ht_root x) ;;
      Done (mkHT (ht_size x + 1) (ht_lv x) (ht_root x) tl)
    else
      nt <-- t_make_leaf v ;;
      ' (l, r) <-- t_push_tail false x off (ht_tail x) ts ;;
      _ <-- up (ht_tail x) ;;
      Done (mkHT (ht_size x + 1) l r nt).
  (** ensure_mutable_tail 437-444; rbtree 262-269. *)
  Definition t_ensure_tail (x : htree) (n : N) : PP nat :=
    u <-- uq (ht_tail x) ;;
    if u : bool then Done (ht_tail x)
    else
      nt <-- t_copy_leaf (ht_tail x) n ;;
      _ <-- t_dec_leaf (ht_tail x) n ;;
      Done nt.
  (** push_back_mut 446-468; rbtree 271-315. *)
  Definition t_push_back_mut (x : htree) (v : T) : PP htree :=
    off <-- t_tail_offset x ;;
    let ts := ht_size x - off in
    if ts <? lwidth then
      tl <-- t_ensure_tail x ts ;;
      xs <-- t_leaf tl ;;
      _ <-- (if lenN xs =? ts then t_put_leaf tl (xs ++ [v]) else Fail) ;;
      Done (mkHT (ht_size x + 1) (ht_lv x) (ht_root x) tl)
    else
      nt <-- t_make_leaf v ;;
      ' (l, r) <-- t_push_tail true x off (ht_tail x) ts ;;
      Done (mkHT (ht_size x + 1) l r nt).

  (** get 527-530 over descend 249-256 (rbtree 378-381, 216-222). *)
  Fixpoint t_get_regular (v : nat) (a : nat) (idx : N) : PP T :=
    match v with
    | O => xs <-- t_leaf a ;; plift (rnthN xs (N.land idx lmask))
    | S l =>
        ' (_, cs) <-- t_inner a ;;
        c <-- plift (rnthN cs (N.land (N.shiftr idx (sh l)) mask)) ;;
        t_get_regular l c idx
    end.
  Fixpoint t_get_relaxed (v : nat) (a : nat) (idx : N) : PP T :=
    match v with
    | O => Fail
    | S l =>
        ' (r, cs) <-- t_inner a ;;
        match r with
        | None => Fail
        | Some r =>
            ' (_, sz) <-- t_table r ;;
            let o := match l with
                     | O => N.land (N.shiftr idx BL) mask
                     | S _ => N.shiftr idx (sh l)
                     end in
            off <-- plift (scan (dropN o sz) idx o) ;;
            c <-- plift (rnthN cs off) ;;
            left <-- plift (if off =? 0 then Ok 0 else rnthN sz (off - 1)) ;;
            match l with
            | O => t_get_regular O c (idx - left)
            | S _ =>
                ' (r', _) <-- t_inner c ;;
                match r' with
                | Some _ => t_get_relaxed l c (idx - left)
                | None => t_get_regular l c (idx - left)
                end
            end
        end
    end.
  Definition t_get (x : htree) (idx : N) : PP T :=
    off <-- t_tail_offset x ;;
    if off <=? idx then t_get_regular O (ht_tail x) (if rx then idx - off else idx)
    else if Nat.ltb (ht_lv x) 6 then
      ' (r, _) <-- (if rx then t_inner (ht_root x) else Done (None, [])) ;;
      match r with
      | Some _ => t_get_relaxed (S (ht_lv x)) (ht_root x) idx
      | None => t_get_regular (S (ht_lv x)) (ht_root x) idx
      end
    else Fail.

  (** update 547-562; rbtree 401-416. *)
  Definition t_update_tree (x : htree) (idx : N) (fn : T -> T) : PP htree :=
    off <-- t_tail_offset x ;;
    if off <=? idx then
      _ <-- plift (mk_sub B BL O (Leaf [] : node) (ht_size x - off)) ;;
      tl <-- t_update O (HSub (ht_tail x) (ht_size x - off)) (idx - off) fn ;;
      _ <-- up (ht_root x) ;;
      Done (mkHT (ht_size x) (ht_lv x) (ht_root x) tl)
    else
      q <-- t_root_pos x off ;;
      r <-- t_update (S (ht_lv x)) q idx fn ;;
      _ <-- up (ht_tail x) ;;
      Done (mkHT (ht_size x) (ht_lv x) r (ht_tail x)).
  (** get_mut 508-525; rbtree 367-377. *)
  Definition t_get_mut_tree (x : htree) (idx : N) : PP (htree * (nat * N)) :=
    off <-- t_tail_offset x ;;
    if off <=? idx then
      tl <-- t_ensure_tail x (ht_size x - off) ;;
      Done (mkHT (ht_size x) (ht_lv x) (ht_root x) tl,
            (tl, N.land (if rx then idx - off else idx) lmask))
    else
      q <-- t_root_pos x off ;;
      ' (r, e) <-- t_get_mut (S (ht_lv x)) q idx ;;
      Done (mkHT (ht_size x) (ht_lv x) r (ht_tail x), e).
  (** update_mut 541-545; rbtree 394-398. *)
  Definition t_update_mut (x : htree) (idx : N) (fn : T -> T) : PP htree :=
    ' (y, (lf, i)) <-- t_get_mut_tree x idx ;;
    xs <-- t_leaf lf ;;
    e <-- plift (rnthN xs i) ;;
    _ <-- t_put_leaf lf (updN i (fn e) xs) ;;
    Done y.

  (** take 615-641, take_mut 574-613; rbtree 428-454, 456-497. *)
  Definition t_cut_root (o : option (nat * nat)) : PP (nat * nat) :=
    match o with
    | Some (S l, r) => Done (l, r)
    | Some (O, _) => Fail
    | None => _ <-- up er ;; Done (O, er)
    end.
  Definition t_take (x : htree) (n : N) : PP htree :=
    off <-- t_tail_offset x ;;
    if n =? 0 then t_empty
    else if ht_size x <=? n then t_copy x
    else if off <? n then
      tl <-- t_copy_leaf (ht_tail x) (n - off) ;;
      _ <-- up (ht_root x) ;;
      Done (mkHT n (ht_lv x) (ht_root x) tl)
    else
      q <-- t_root_pos x off ;;
      ' (o, _, tl) <-- t_slice_right true false (S (ht_lv x)) q (n - 1) ;;
      ' (l, r) <-- t_cut_root o ;;
      Done (mkHT n l r tl).
  Definition t_take_mut (x : htree) (n : N) : PP htree :=
    off <-- t_tail_offset x ;;
    if n =? 0 then t_clear x
    else if ht_size x <=? n then Done x
    else if off <? n then
      let ts := ht_size x - off in
      u <-- uq (ht_tail x) ;;
      tl <-- (if u : bool then _ <-- t_destroy_right (ht_tail x) (n - off) ts ;; Done (ht_tail x)
              else nt <-- t_copy_leaf (ht_tail x) (n - off) ;;
                   _ <-- t_dec_leaf (ht_tail x) ts ;;
                   Done nt) ;;
      Done (mkHT n (ht_lv x) (ht_root x) tl)
    else
      q <-- t_root_pos x off ;;
      ' (o, _, tl) <-- t_slice_right true true (S (ht_lv x)) q (n - 1) ;;
      ' (l, r) <-- t_cut_root o ;;
      _ <-- t_dec_leaf (ht_tail x) (ht_size x - off) ;;
      Done (mkHT n l r tl).

  (** drop 679-701, drop_mut 643-677; rrbtree only. *)
  Definition t_drop (x : htree) (n : N) : PP htree :=
    if n =? 0 then t_copy x
    else if ht_size x <=? n then t_empty
    else
      off <-- t_tail_offset x ;;
      if n =? off then
        _ <-- up er ;; _ <-- up (ht_tail x) ;; Done (mkHT (ht_size x - n) O er (ht_tail x))
      else if off <? n then
        tl <-- t_copy_range (ht_tail x) (n - off) (ht_size x - off) ;;
        _ <-- up er ;;
        Done (mkHT (ht_size x - n) O er tl)
      else
        q <-- t_maybe (S (ht_lv x)) (ht_root x) off ;;
        ' (w, r) <-- t_slice_left true false (S (ht_lv x)) q n ;;
        _ <-- up (ht_tail x) ;;
        match w with
        | S l => Done (mkHT (ht_size x - n) l r (ht_tail x))
        | O => Fail
        end.
  Definition t_drop_mut (x : htree) (n : N) : PP htree :=
    off <-- t_tail_offset x ;;
    if n =? 0 then Done x
    else if ht_size x <=? n then t_clear x
    else if n =? off then
      _ <-- t_dec_inner (S (ht_lv x)) (ht_root x) off ;;
      _ <-- up er ;;
      Done (mkHT (ht_size x - n) O er (ht_tail x))
    else if off <? n then
      _ <-- plift (mk_sub B BL O (Leaf [] : node) (ht_size x - off)) ;;
      ' (_, tl) <-- t_slice_left true true O (HSub (ht_tail x) (ht_size x - off)) (n - off) ;;
      if 0 <? off then
        _ <-- t_dec_inner (S (ht_lv x)) (ht_root x) off ;;
        _ <-- up er ;;
        Done (mkHT (ht_size x - n) O er tl)
      else Done (mkHT (ht_size x - n) (ht_lv x) (ht_root x) tl)
    else
      q <-- t_maybe (S (ht_lv x)) (ht_root x) off ;;
      ' (w, r) <-- t_slice_left true true (S (ht_lv x)) q n ;;
      match w with
      | S l => Done (mkHT (ht_size x - n) l r (ht_tail x))
      | O => Fail
      end.
  End Tree.

  (** ** Programs: VecProg *)
  (** The static empty nodes of each class. *)
  Variables er et : bool -> nat.
  (** push_back, update, set, take, drop: vector.hpp:243-329, flex_vector.hpp:241-374. *)
  Definition t_apply (rx : bool) (o : vop T) (x : htree) : PP htree :=
    match o with
    | VPush v => t_push_back rx x v
    | VUpdate i fn => if i <? ht_size x then t_update_tree rx x i fn else t_copy x
    | VTake n => t_take rx (er rx) (et rx) x n
    | VDrop n => t_drop rx (er rx) (et rx) x n
    end.
  (** The same on a transient (vector_transient.hpp:142-176, flex_vector_transient.hpp:154-195)
      or on an rvalue ( *_move: vector.hpp:378-413, flex_vector.hpp:540-585). *)
  Definition t_mutate (rx : bool) (o : vop T) (x : htree) : PP htree :=
    match o with
    | VPush v => t_push_back_mut rx x v
    | VUpdate i fn => if i <? ht_size x then t_update_mut rx x i fn else Done x
    | VTake n => t_take_mut rx (er rx) (et rx) x n
    | VDrop n => t_drop_mut rx (er rx) (et rx) x n
    end.

  (** A statement of a thread that uses its own variables [l]: see [pstep] in VecProg. *)
  Definition t_step (l : list vvar) (o : pop T) : PP (list vvar * pobs T) :=
    match o with
    | PNew rx => x <-- t_empty (er rx) (et rx) ;; Done (l ++ [HHas rx x], SNone)
    | PCopy i =>
        match vvar_at l i with
        | HHas rx x => y <-- t_copy x ;; Done (l ++ [HHas rx y], SNone)
        | HGone => Done (l ++ [HGone], SNone)
        end
    | PMove i =>
        match vvar_at l i with
        | HHas rx x => y <-- t_empty (er rx) (et rx) ;; Done (update_at i (HHas rx y) l ++ [HHas rx x], SNone)
        | HGone => Done (l ++ [HGone], SNone)
        end
    | PFlex i =>
        match vvar_at l i with
        | HHas false x => y <-- t_copy x ;; Done (l ++ [HHas true y], SNone)
        | _ => Done (l ++ [HGone], SNone)
        end
    | PAssign i j =>
        match vvar_at l i, vvar_at l j with
        | HHas rx x, HHas ry y =>
            if same rx ry then
              next <-- t_copy y ;; _ <-- t_destroy rx x ;; Done (update_at i (HHas rx next) l, SNone)
            else Done (l, SNone)
        | _, _ => Done (l, SNone)
        end
    | PMoveAssign i j =>
        match vvar_at l i, vvar_at l j with
        | HHas rx x, HHas ry y =>
            if same rx ry then Done (update_at i (HHas ry y) (update_at j (HHas rx x) l), SNone)
            else Done (l, SNone)
        | _, _ => Done (l, SNone)
        end
    | PDestroy i =>
        match vvar_at l i with
        | HHas rx x => _ <-- t_destroy rx x ;; Done (update_at i HGone l, SNone)
        | HGone => Done (l, SNone)
        end
    | PApply i o _ =>
        match vvar_at l i with
        | HHas rx x =>
            if offers rx o then
              if too_deep B BL x o then Done (l ++ [HGone], SDeep (ht_lv x))
              else y <-- t_apply rx o x ;; Done (l ++ [HHas rx y], SNone)
            else Done (l ++ [HGone], SNone)
        | HGone => Done (l ++ [HGone], SNone)
        end
    | PMutate fx i o _ =>
        match vvar_at l i with
        | HHas rx x =>
            if same fx rx && offers fx o then
              if too_deep B BL x o then Done (l, SDeep (ht_lv x))
              else y <-- t_mutate rx o x ;; Done (update_at i (HHas rx y) l, SNone)
            else Done (l, SNone)
        | HGone => Done (l, SNone)
        end
    | PConcat _ _ _ _ => Fail
    | PGet i k =>
        match vvar_at l i with
        | HHas rx x =>
            if ht_size x <=? k then Done (l, SThrew)
            else if Nat.leb 6 (ht_lv x) then Done (l, SDeep (ht_lv x))
            else v <-- t_get rx x k ;; Done (l, SElem v)
        | HGone => Done (l, SNone)
        end
    | PSize i =>
        match vvar_at l i with
        | HHas _ x => Done (l, SSize (ht_size x))
        | HGone => Done (l, SNone)
        end
    end.
  (** A thread. *)
  Fixpoint t_thread (l : list vvar) (os : list (pop T)) : PP (list vvar * list (pobs T)) :=
    match os with
    | [] => Done (l, [])
    | o :: os' =>
        ' (l', x) <-- t_step l o ;;
        ' (l'', xs) <-- t_thread l' os' ;;
        Done (l'', x :: xs)
    end.
End VecConc.
