(** The radix-balanced trees of vector and flex_vector in counted memory: nodes, size tables,
    positions and visitors, persistent and in place (transients and rvalues), with exceptions.
    Source: /repo/immer/detail/rbts/{node,position,operations,rbtree,rrbtree}.hpp.

    A block is a leaf with its elements, an inner node or a size table.  The pointers an inner
    node owns are its size table, if it is relaxed, and its children.

    Simplifications: reference counting is the memory policy, so that can_mutate is
    refs().unique() (node.hpp:856-859; the ownee of no_transience_policy never allows
    mutation), and size tables are blocks of their own (embed_relaxed is false,
    node.hpp:60-70).  The sizes of blocks are not modelled, so that the make_..._n, make_..._e
    pairs are one function each.  An exception can leave an allocation, the copy of an element
    and a call of a user function; moving an element does not throw.  A copy of a range that
    throws has destroyed the elements it made (util.hpp:113-169), so that only whether the
    range throws matters. *)
From Coq Require Import List NArith Arith Bool.
From Verif Require Import Common NList Rrb RcHeap RcExn.
Import ListNotations.
Local Open Scope N_scope.

(** node.hpp:60-120: [VLeaf] holds elements, [VInner] is a node without a size table, [VRel]
    one whose first pointer is its table, [VTable] is a table (relaxed_t).  The number with a
    table is not in the memory of the program: it is the level of the nodes the table is made
    for, and no operation reads it other than to hand it to the copy of the table. *)
Inductive vbody (T : Type) : Type :=
| VLeaf (xs : list T)
| VInner
| VRel
| VTable (v : nat) (sz : list N).
Arguments VLeaf {T}. Arguments VInner {T}. Arguments VRel {T}. Arguments VTable {T}.

(** Positions (position.hpp) on addresses; see [pos] in Rrb.  A relaxed position keeps the
    table it was made with (position.hpp:1413-1418). *)
Inductive hpos : Type :=
| HFull (a : nat)
| HReg (a : nat) (s : N)
| HSub (a : nat) (s : N)
| HRel (a : nat) (r : nat)
| HSingle (a : nat) (c : N)
| HNone.

(** A child about to be visited, and how its position is made. *)
Inductive hkid : Type :=
| KFull (c : nat)
| KReg (c : nat) (s : N)
| KSub (c : nat) (s : N)
| KMaybe (c : nat) (s : N).

Section VecHeap.
  Variables B BL : N.
  Context {T : Type}.
  (** What an element is after it was moved from. *)
  Variable gone : T -> T.
  (** std::is_nothrow_move_constructible. *)
  Variable nm : bool.

  Notation MM := (M (vbody T)).
  Notation XX := (X (vbody T)).
  Notation node := (node T).
  Notation pos := (pos T).
  Notation sh := (sh B BL).
  Notation width := (width B).
  Notation lwidth := (lwidth BL).
  Notation lmask := (lmask BL).

  (** *** Access *)
  (** leaf(), inner(), relaxed() and its sizes: node.hpp:150-187. *)
  Definition load_leaf (a : nat) : MM (list T) :=
    c <~ load a ;; match c_body c with VLeaf xs => mret xs | _ => mub end.
  Definition load_inner (a : nat) : MM (option nat * list nat) :=
    c <~ load a ;;
    match c_body c, c_kids c with
    | VInner, cs => mret (None, cs)
    | VRel, r :: cs => mret (Some r, cs)
    | _, _ => mub
    end.
  Definition load_table (r : nat) : MM (list N) :=
    c <~ load r ;; match c_body c with VTable _ sz => mret sz | _ => mub end.
  Definition table_level (r : nat) : MM nat :=
    c <~ load r ;; match c_body c with VTable v _ => mret v | _ => mub end.
  (** Writes to those. *)
  Definition put_leaf (a : nat) (xs : list T) : MM unit :=
    c <~ load a ;;
    match c_body c with
    | VLeaf _ => store a (mkCell (c_rc c) (VLeaf xs) (c_kids c))
    | _ => mub
    end.
  Definition put_inner (a : nat) (r : option nat) (cs : list nat) : MM unit :=
    c <~ load a ;;
    match c_body c with
    | VInner | VRel =>
        store a (match r with
                 | None => mkCell (c_rc c) VInner cs
                 | Some r => mkCell (c_rc c) VRel (r :: cs)
                 end)
    | _ => mub
    end.
  Definition put_table (r : nat) (sz : list N) : MM unit :=
    c <~ load r ;;
    match c_body c with
    | VTable v _ => store r (mkCell (c_rc c) (VTable v sz) (c_kids c))
    | _ => mub
    end.
  (** [node->inner()[i] = child] for the last child, [i] children being kept. *)
  Definition put_last (a : nat) (i : N) (child : nat) : MM unit :=
    ' (r, cs) <~ load_inner a ;; cs' <~ mlift (rtakeN i cs) ;; put_inner a r (cs' ++ [child]).
  (** [node->inner()[i] = child] over a child. *)
  Definition put_kid (a : nat) (i : N) (child : nat) : MM unit :=
    ' (r, cs) <~ load_inner a ;; _ <~ mlift (rnthN cs i) ;; put_inner a r (updN i child cs).
  (** Only the first [i] children stay. *)
  Definition cut_kids (a : nat) (i : N) : MM unit :=
    ' (r, cs) <~ load_inner a ;; cs' <~ mlift (rtakeN i cs) ;; put_inner a r cs'.
  (** [relaxed->d.sizes[i] = s; relaxed->d.count = i + 1;] *)
  Definition put_size (r : nat) (i : N) (s : N) : MM unit :=
    sz <~ load_table r ;; sz' <~ mlift (rtakeN i sz) ;; put_table r (sz' ++ [s]).
  (** [relaxed->d.count = i;] *)
  Definition cut_sizes (r : nat) (i : N) : MM unit :=
    sz <~ load_table r ;; sz' <~ mlift (rtakeN i sz) ;; put_table r sz'.

  (** *** Allocation and deletion of nodes *)
  (** make_inner_n, make_inner_e: node.hpp:196-228. *)
  Definition make_inner : XX nat := _ <- may_throw ;;; xm (new VInner []).
  (** make_inner_r_n, make_inner_r_e: node.hpp:230-254, 273-301. *)
  Definition make_inner_r (v : nat) : XX nat :=
    _ <- may_throw ;;;
    n <- xm (new VInner []) ;;;
    _ <- xtry may_throw (free n) ;;;
    xm (r <~ new (VTable v []) [] ;; _ <~ put_inner n (Some r) [] ;; mret n).
  (** make_inner_sr_e: node.hpp:303-318. *)
  Definition make_inner_sr (r : nat) : XX nat :=
    _ <- may_throw ;;; xm (_ <~ inc r ;; new VRel [r]).
  (** make_inner_sr_n with its assertion: node.hpp:256-271. *)
  Definition make_inner_sr_n (n : N) (r : nat) : XX nat :=
    _ <- may_throw ;;;
    xm (sz <~ load_table r ;; if n <=? lenN sz then _ <~ inc r ;; new VRel [r] else mub).
  (** make_leaf_n(1, x), make_leaf_e(e, x): node.hpp:454-485; the constructor moves. *)
  Definition make_leaf (x : T) : XX nat := _ <- may_throw ;;; xm (new (VLeaf [x]) []).

  (** delete_inner(_e): node.hpp:797-813. *)
  Definition delete_inner (a : nat) : MM unit :=
    ' (r, _) <~ load_inner a ;; match r with None => free a | Some _ => mub end.
  (** delete_inner_r(_e): node.hpp:822-847. *)
  Definition delete_inner_r (a : nat) : MM unit :=
    ' (r, _) <~ load_inner a ;;
    match r with
    | None => mub
    | Some r => last <~ dec r ;; _ <~ (if last then free r else mret tt) ;; free a
    end.
  (** heap::deallocate of a leaf without elements. *)
  Definition dealloc_leaf (a : nat) : MM unit :=
    xs <~ load_leaf a ;; match xs with [] => free a | _ => mub end.
  (** delete_leaf: node.hpp:849-856.  The [n] elements destroyed have to be the elements of the
      leaf. *)
  Definition delete_leaf (a : nat) (n : N) : MM unit :=
    xs <~ load_leaf a ;; if lenN xs =? n then free a else mub.
  (** detail::destroy_n(leaf() + n, k - n). *)
  Definition destroy_right (a : nat) (n k : N) : MM unit :=
    xs <~ load_leaf a ;;
    if lenN xs =? k then ys <~ mlift (rtakeN n xs) ;; put_leaf a ys else mub.

  (** make_path(_e): node.hpp:487-521. *)
  Fixpoint hmake_path (v : nat) (tl : nat) : XX nat :=
    match v with
    | O => xret tl
    | S v' =>
        n <- make_inner ;;;
        _ <- xtry (c <- hmake_path v' tl ;;; xm (put_inner n None [c])) (free n) ;;;
        xret n
    end.

  (** do_copy_inner, do_copy_inner_sr: node.hpp:548-557, 623-635.  [more] are the children
      the caller writes after the copied ones. *)
  Definition do_copy_inner (dst src : nat) (n : N) (more : list nat) : MM unit :=
    ' (_, cs) <~ load_inner src ;;
    cs' <~ mlift (rtakeN n cs) ;;
    _ <~ each_of inc cs' ;;
    ' (r, _) <~ load_inner dst ;;
    put_inner dst r (cs' ++ more).
  (** do_copy_inner_replace(_sr): node.hpp:559-571, 637-653. *)
  Definition do_copy_inner_replace (dst src : nat) (n off : N) (child : nat) : MM unit :=
    ' (_, cs) <~ load_inner src ;;
    left <~ mlift (rtakeN off cs) ;;
    right <~ mlift (rsliceN (off + 1) n cs) ;;
    _ <~ each_of inc left ;;
    _ <~ each_of inc right ;;
    ' (r, _) <~ load_inner dst ;;
    put_inner dst r (left ++ child :: right).
  (** do_copy_inner_r: node.hpp:594-604, with what the caller writes after the copied
      children and sizes. *)
  Definition do_copy_inner_r (dst src : nat) (n : N) (more : list nat) (msz : list N) : MM unit :=
    ' (sr, cs) <~ load_inner src ;;
    ' (dr, _) <~ load_inner dst ;;
    match sr, dr with
    | Some sr, Some dr =>
        cs' <~ mlift (rtakeN n cs) ;;
        _ <~ each_of inc cs' ;;
        _ <~ put_inner dst (Some dr) (cs' ++ more) ;;
        sz <~ load_table sr ;;
        sz' <~ mlift (rtakeN n sz) ;;
        put_table dr (sz' ++ msz)
    | _, _ => mub
    end.
  (** The copy of elements into a new leaf: copy_leaf, copy_leaf_e, copy_leaf_n,
      node.hpp:655-700, 739-780. *)
  Definition fill_leaf (ys : res (list T)) : XX nat :=
    _ <- may_throw ;;;
    p <- xm (new (VLeaf []) []) ;;;
    _ <- xtry may_throw (dealloc_leaf p) ;;;
    _ <- xm (ys <~ mlift ys ;; put_leaf p ys) ;;;
    xret p.
  Definition hcopy_leaf (a : nat) (n : N) : XX nat :=
    xs <- xm (load_leaf a) ;;; fill_leaf (rtakeN n xs).
  Definition hcopy_range (a : nat) (i j : N) : XX nat :=
    xs <- xm (load_leaf a) ;;; fill_leaf (rsliceN i j xs).
  (** copy_leaf(src1, n1, src2, n2): node.hpp:702-737. *)
  Definition hcopy_leaf2 (a1 : nat) (n1 : N) (a2 : nat) (n2 : N) : XX nat :=
    p <- hcopy_leaf a1 n1 ;;;
    _ <- xtry may_throw (delete_leaf p n1) ;;;
    _ <- xm (xs <~ load_leaf p ;; ys <~ load_leaf a2 ;; zs <~ mlift (rtakeN n2 ys) ;;
             put_leaf p (xs ++ zs)) ;;;
    xret p.
  (** copy_leaf_emplace: node.hpp:782-795. *)
  Definition hcopy_emplace (a : nat) (n : N) (x : T) : XX nat :=
    p <- hcopy_leaf a n ;;;
    _ <- xtry may_throw (delete_leaf p n) ;;;
    _ <- xm (xs <~ load_leaf p ;; put_leaf p (xs ++ [x])) ;;;
    xret p.

  (** ensure_mutable_relaxed_n: node.hpp:919-943; ensure_mutable_relaxed (866-890) copies all
      the sizes. *)
  Definition ensure_relaxed (a : nat) (n : option N) : XX nat :=
    ' (r, cs) <- xm (load_inner a) ;;;
    match r with
    | None => xm mub
    | Some r =>
        u <- xm (unique r) ;;;
        if u then xret r
        else
          _ <- may_throw ;;;
          xm (sz <~ load_table r ;;
              sz' <~ mlift (match n with Some n => rtakeN n sz | None => Ok sz end) ;;
              v <~ table_level r ;;
              d <~ new (VTable v sz') [] ;;
              last <~ dec r ;;
              _ <~ (if last then free r else mret tt) ;;
              _ <~ put_inner a (Some d) cs ;;
              mret d)
    end.

  (** *** Positions *)
  Definition haddr (p : hpos) : res nat :=
    match p with
    | HFull a | HReg a _ | HSub a _ | HRel a _ => Ok a
    | HSingle _ _ | HNone => UB
    end.
  (** What index(), count(), size() and the like read: everything but the node. *)
  Definition view (p : hpos) : MM pos :=
    match p with
    | HFull _ => mret (PFull (Leaf []))
    | HReg _ s => mret (PReg (Leaf []) s)
    | HSub _ s => mret (PSub (Leaf []) s)
    | HRel _ r => sz <~ load_table r ;; mret (PRel (Leaf []) sz)
    | HSingle _ c => mret (PSingle (Leaf []) c)
    | HNone => mret PNone
    end.
  (** visit_maybe_relaxed_sub on a node of level [v]: position.hpp:1827-1841. *)
  Definition hmaybe (v : nat) (a : nat) (s : N) : MM hpos :=
    ' (r, _) <~ load_inner a ;;
    match r with
    | Some r =>
        sz <~ load_table r ;;
        t <~ mlift (last_of sz) ;;
        if t =? s then mret (HRel a r) else mub
    | None => _ <~ mlift (mk_sub B BL v (Leaf [] : node) s) ;; mret (HSub a s)
    end.
  (** The position of a child of level [v]. *)
  Definition open (v : nat) (k : hkid) : MM hpos :=
    match k with
    | KFull c => mret (HFull c)
    | KReg c s => _ <~ mlift (mk_reg (Leaf [] : node) s) ;; mret (HReg c s)
    | KSub c s => _ <~ mlift (mk_sub B BL v (Leaf [] : node) s) ;; mret (HSub c s)
    | KMaybe c s =>
        match v with
        | O => _ <~ mlift (mk_sub B BL O (Leaf [] : node) s) ;; mret (HSub c s)
        | S _ => hmaybe v c s
        end
    end.

  (** The children a traversal visits, from what the position shows and the children of the
      node: see the functions of the same names in Rrb. *)
  Fixpoint hrel_go (cs : list nat) (sz : list N) (s : N) : list hkid :=
    match cs, sz with
    | [], _ | _, [] => []
    | c :: cs', t :: sz' => KMaybe c (t - s) :: hrel_go cs' sz' t
    end.
  Definition hrel_range (cs : list nat) (sz : list N) (i j : N) : res (list hkid) :=
    if j <=? i then Ok []
    else
      s <- (if i =? 0 then Ok 0 else rnthN sz (i - 1)) ;;
      cs' <- rsliceN i j cs ;;
      sz' <- rsliceN i j sz ;;
      Ok (hrel_go cs' sz' s).
  Definition hregular_right (cs : list nat) (s start last : N) : res (list hkid) :=
    hd <- rsliceN start last cs ;; c <- rnthN cs last ;; Ok (map KFull hd ++ [KReg c s]).
  Definition heach (l : nat) (p : pos) (cs : list nat) : res (list hkid) :=
    match p with
    | PReg _ s | PSub _ s => c <- count B BL (S l) p ;; hregular_right cs s 0 (c - 1)
    | PFull _ => hd <- rtakeN width cs ;; Ok (map KFull hd)
    | PRel _ sz => hrel_range cs sz 0 (lenN sz)
    | PSingle _ _ => Ok []
    | PNone => UB
    end.
  Definition heach_left (l : nat) (p : pos) (cs : list nat) (n : N) : res (list hkid) :=
    match p with
    | PReg _ _ | PSub _ _ =>
        c <- count B BL (S l) p ;;
        if n <? c then hd <- rtakeN n cs ;; Ok (map KFull hd) else UB
    | PFull _ => hd <- rtakeN n cs ;; Ok (map KFull hd)
    | PRel _ sz => hrel_range cs sz 0 n
    | _ => UB
    end.
  Definition heach_right (l : nat) (p : pos) (cs : list nat) (start : N) : res (list hkid) :=
    match p with
    | PReg _ s | PSub _ s =>
        c <- count B BL (S l) p ;;
        if start <=? c - 1 then hregular_right cs s start (c - 1) else Ok []
    | PFull _ => hd <- rsliceN start width cs ;; Ok (map KFull hd)
    | PRel _ sz =>
        if (0 <? start) && (start <=? lenN sz) then hrel_range cs sz start (lenN sz) else UB
    | _ => UB
    end.
  Definition htowards (l : nat) (p : pos) (cs : list nat) (idx off : N) : res (hkid * N) :=
    match p with
    | PReg _ s | PSub _ s =>
        c <- rnthN cs off ;; k <- count B BL (S l) p ;;
        Ok (if off + 1 =? k then KReg c s else KFull c, idx)
    | PFull _ => c <- rnthN cs off ;; Ok (KFull c, idx)
    | PRel _ sz =>
        left <- (if off =? 0 then Ok 0 else rnthN sz (off - 1)) ;;
        c <- rnthN cs off ;;
        t <- rnthN sz off ;;
        Ok (KMaybe c (t - left), idx - left)
    | _ => UB
    end.
  Definition htowards_sub (l : nat) (p : pos) (cs : list nat) (idx off : N) : res (hkid * N) :=
    match p with
    | PReg _ _ | PSub _ _ =>
        c <- rnthN cs off ;;
        lsize <- shl32 off (sh l) ;;
        s <- this_size B BL l p ;;
        Ok (if N.shiftl 1 (sh l) <=? s - lsize then KFull c else KSub c (s - lsize), idx - lsize)
    | PFull _ => c <- rnthN cs off ;; Ok (KFull c, idx - N.shiftl off (sh l))
    | PRel _ _ => htowards l p cs idx off
    | _ => UB
    end.

  (** *** dec_visitor and its kin: operations.hpp:516-582, 859-890, 1190-1222 *)
  Fixpoint hdec (v : nat) (hp : hpos) : MM unit :=
    a <~ mlift (haddr hp) ;;
    last <~ dec a ;;
    if last then
      match v with
      | O => p <~ view hp ;; k <~ mlift (count B BL O p) ;; delete_leaf a k
      | S l =>
          p <~ view hp ;;
          ' (_, cs) <~ load_inner a ;;
          ks <~ mlift (heach l p cs) ;;
          _ <~ each_of (fun k => q <~ open l k ;; hdec l q) ks ;;
          match hp with HRel _ _ => delete_inner_r a | _ => delete_inner a end
      end
    else mret tt.
  (** A visit by dec_visitor of children. *)
  Definition hdecs (l : nat) (ks : list hkid) : MM unit :=
    each_of (fun k => q <~ open l k ;; hdec l q) ks.
  Definition hdec_kid (l : nat) (k : hkid) : MM unit := q <~ open l k ;; hdec l q.
  (** dec_leaf: 551-555; dec_inner: 557-561. *)
  Definition dec_leaf (a : nat) (n : N) : MM unit := hdec_kid O (KSub a n).
  Definition dec_inner (v : nat) (a : nat) (s : N) : MM unit := q <~ hmaybe v a s ;; hdec v q.
  (** dec_relaxed: 563-567; dec_regular: 569-573. *)
  Definition dec_relaxed (v : nat) (a : nat) : MM unit :=
    ' (r, _) <~ load_inner a ;; match r with Some r => hdec v (HRel a r) | None => mub end.
  Definition dec_regular (v : nat) (a : nat) (s : N) : MM unit := hdec_kid v (KReg a s).
  (** dec_empty_regular: 575-579, with empty_regular_pos (position.hpp:29-65). *)
  Definition dec_empty (a : nat) : MM unit :=
    last <~ dec a ;; if last then delete_inner a else mret tt.
  (** dec_right_visitor: 859-890; dec_left_visitor: 1190-1222. *)
  Definition dec_right (l : nat) (hp : hpos) (idx : N) : MM unit :=
    a <~ mlift (haddr hp) ;;
    last <~ dec a ;;
    if last then
      p <~ view hp ;;
      ' (_, cs) <~ load_inner a ;;
      ks <~ mlift (heach_right l p cs idx) ;;
      _ <~ hdecs l ks ;;
      match hp with HRel _ _ => delete_inner_r a | _ => delete_inner a end
    else mret tt.
  Definition dec_left (l : nat) (hp : hpos) (idx : N) : MM unit :=
    a <~ mlift (haddr hp) ;;
    last <~ dec a ;;
    if last then
      p <~ view hp ;;
      ' (_, cs) <~ load_inner a ;;
      ks <~ mlift (heach_left l p cs idx) ;;
      _ <~ hdecs l ks ;;
      match hp with HRel _ _ => delete_inner_r a | _ => delete_inner a end
    else mret tt.
  (** [if (b) m]. *)
  Definition mwhen (b : bool) (m : MM unit) : MM unit := if b then m else mret tt.

  (** *** update_visitor: operations.hpp:457-514 *)
  Fixpoint hupdate (v : nat) (hp : hpos) (idx : N) (fn : T -> T) : XX nat :=
    a <- xm (mlift (haddr hp)) ;;;
    p <- xm (view hp) ;;;
    off <- xm (mlift (index B BL v p idx)) ;;;
    k <- xm (mlift (count B BL v p)) ;;;
    match v with
    | O =>
        n <- hcopy_leaf a k ;;;
        _ <- xtry (_ <- may_throw ;;;
                   xm (xs <~ load_leaf n ;; x <~ mlift (rnthN xs off) ;;
                       put_leaf n (updN off (fn x) xs)))
                  (delete_leaf n k) ;;;
        xret n
    | S l =>
        n <- match hp with HRel _ r => make_inner_sr_n k r | _ => make_inner end ;;;
        _ <- xtry (' (kd, idx') <- xm (' (_, cs) <~ load_inner a ;; mlift (htowards l p cs idx off)) ;;;
                   q <- xm (open l kd) ;;;
                   c <- hupdate l q idx' fn ;;;
                   xm (do_copy_inner_replace n a k off c))
                  match hp with HRel _ _ => delete_inner_r n | _ => delete_inner n end ;;;
        xret n
    end.

  (** *** get_mut_visitor: operations.hpp:584-663.  The result is what *location becomes, and
      the leaf and offset of the element. *)
  Fixpoint hget_mut (v : nat) (hp : hpos) (idx : N) : XX (nat * (nat * N)) :=
    a <- xm (mlift (haddr hp)) ;;;
    p <- xm (view hp) ;;;
    off <- xm (mlift (index B BL v p idx)) ;;;
    k <- xm (mlift (count B BL v p)) ;;;
    u <- xm (unique a) ;;;
    match v with
    | O =>
        if u then xret (a, (a, off))
        else n <- hcopy_leaf a k ;;; _ <- xm (hdec O hp) ;;; xret (n, (n, off))
    | S l =>
        ' (kd, idx') <- xm (' (_, cs) <~ load_inner a ;; mlift (htowards l p cs idx off)) ;;;
        if u then
          q <- xm (open l kd) ;;;
          ' (c, e) <- hget_mut l q idx' ;;;
          _ <- xm (put_kid a off c) ;;;
          xret (a, e)
        else
          n <- match hp with HRel _ r => make_inner_sr r | _ => make_inner end ;;;
          _ <- xm (do_copy_inner n a k []) ;;;
          e <- xtry (q <- xm (open l kd) ;;;
                     ' (c, e) <- hget_mut l q idx' ;;;
                     _ <- xm (put_kid n off c) ;;;
                     _ <- xm (hdec v hp) ;;;
                     xret e)
                    match hp with
                    | HRel _ _ => dec_relaxed v n
                    | _ => p <~ view hp ;; s <~ mlift (psize B BL v p) ;; dec_regular v n s
                    end ;;;
          xret (n, e)
    end.

  (** *** push_tail_mut_visitor: operations.hpp:665-777.  With [mutating] false this is also
      push_tail_visitor (779-857), whose nodes differ in their allocated sizes only.  [None]
      is the null result. *)
  Fixpoint hpush (mutating : bool) (v : nat) (hp : hpos) (tl : nat) (ts : N) : XX (option nat) :=
    match v with
    | O => xm mub
    | S l =>
        a <- xm (mlift (haddr hp)) ;;;
        p <- xm (view hp) ;;;
        ' (_, cs) <- xm (load_inner a) ;;;
        u <- xm (unique a) ;;;
        let mutate := mutating && u in
        match p with
        | PRel _ sz =>
            let idx := lenN sz - 1 in
            children <- xm (mlift (size_at B BL v p idx)) ;;;
            let finish new_idx new_child :=
              if mutate then
                t <- ensure_relaxed a (Some new_idx) ;;;
                xm (p' <~ view hp ;;
                    s <~ mlift (psize B BL v p') ;;
                    _ <~ put_last a new_idx new_child ;;
                    _ <~ put_size t new_idx (s + ts) ;;
                    mret (Some a))
              else
                xtry (n <- make_inner_r v ;;;
                      xm (p' <~ view hp ;;
                          s <~ mlift (psize B BL v p') ;;
                          _ <~ do_copy_inner_r n a new_idx [new_child] [s + ts] ;;
                          _ <~ mwhen mutating (hdec v hp) ;;
                          mret (Some n)))
                     match l with
                     | O => mret tt
                     | S _ =>
                         _ <~ inc tl ;;
                         dec_inner l new_child (if new_idx =? idx then children + ts else ts)
                     end in
            if (children =? N.shiftl 1 (sh l)) || match l with O => true | _ => false end then
              if width <=? idx + 1 then xret None
              else c <- hmake_path l tl ;;; finish (idx + 1) c
            else if width <=? idx then xret None
            else
              x <- xm (mlift (rnthN cs idx)) ;;;
              q <- xm (open l (KMaybe x children)) ;;;
              r <- hpush mutate l q tl ts ;;;
              match r with
              | Some c => finish idx c
              | None =>
                  if idx + 1 <? width then c <- hmake_path l tl ;;; finish (idx + 1) c
                  else xret None
              end
        | PReg _ s | PSub _ s =>
            if negb (N.land s lmask =? 0) then xm mub
            else
              idx <- xm (mlift (index B BL v p (s - 1))) ;;;
              new_idx <- xm (mlift (index B BL v p (s + lwidth - 1))) ;;;
              let child :=
                if idx =? new_idx then
                  x <- xm (mlift (rnthN cs idx)) ;;;
                  q <- xm (open l (KReg x s)) ;;;
                  r <- hpush mutate l q tl ts ;;;
                  match r with Some c => xret c | None => xm mub end
                else hmake_path l tl in
              if mutate then
                c <- child ;;;
                _ <- xm (put_last a new_idx c) ;;;
                xret (Some a)
              else
                n <- make_inner ;;;
                _ <- xtry (c <- child ;;;
                           xm (_ <~ do_copy_inner n a new_idx [c] ;;
                               mwhen mutating (hdec v hp)))
                          (delete_inner n) ;;;
                xret (Some n)
        | _ => xm mub
        end
    end.

  (** *** slice_right_mut_visitor: operations.hpp:892-1078; with [mutating] false this is also
      slice_right_visitor (1080-1188).  The result is as in Rrb. *)
  Fixpoint hslice_right (collapse mutating : bool) (v : nat) (hp : hpos) (last : N)
    : XX (option (nat * nat) * N * nat) :=
    a <- xm (mlift (haddr hp)) ;;;
    p <- xm (view hp) ;;;
    u <- xm (unique a) ;;;
    let mutate := mutating && u in
    match v with
    | O =>
        old <- xm (mlift (count B BL O p)) ;;;
        i <- xm (mlift (index B BL O p last)) ;;;
        if i + 1 =? old then
          _ <- xm (mwhen (negb mutating) (inc a)) ;;; xret (None, i + 1, a)
        else if mutate then
          _ <- xm (destroy_right a (i + 1) old) ;;; xret (None, i + 1, a)
        else
          n <- hcopy_leaf a (i + 1) ;;;
          _ <- xm (mwhen mutating (hdec O hp)) ;;;
          xret (None, i + 1, n)
    | S l =>
        idx <- xm (mlift (index B BL v p last)) ;;;
        ' (_, cs) <- xm (load_inner a) ;;;
        ' (kd, last') <- xm (mlift (htowards l p cs last idx)) ;;;
        q <- xm (open l kd) ;;;
        if collapse && (idx =? 0) then
          r <- hslice_right true mutate l q last' ;;;
          _ <- xm (mwhen mutating (dec_right l hp 1)) ;;;
          xret r
        else
          ' (next, ts, tl) <- hslice_right false mutate l q last' ;;;
          xtry
            match next with
            | Some (_, c) =>
                match hp with
                | HRel _ _ =>
                    if mutate then
                      t <- ensure_relaxed a (Some idx) ;;;
                      xm (p' <~ view hp ;;
                          ks <~ mlift (heach_right l p' cs (idx + 1)) ;;
                          _ <~ hdecs l ks ;;
                          _ <~ put_last a idx c ;;
                          _ <~ put_size t idx (last + 1 - ts) ;;
                          mret (Some (v, a), ts, tl))
                    else
                      n <- make_inner_r v ;;;
                      xm (_ <~ do_copy_inner_r n a idx [c] [last + 1 - ts] ;;
                          _ <~ mwhen mutating (hdec v hp) ;;
                          mret (Some (v, n), ts, tl))
                | _ =>
                    if mutate then
                      xm (ks <~ mlift (heach_right l p cs (idx + 1)) ;;
                          _ <~ hdecs l ks ;;
                          _ <~ put_last a idx c ;;
                          mret (Some (v, a), ts, tl))
                    else
                      n <- make_inner ;;;
                      xm (_ <~ do_copy_inner n a idx [c] ;;
                          _ <~ mwhen mutating (hdec v hp) ;;
                          mret (Some (v, n), ts, tl))
                end
            | None =>
                if idx =? 0 then
                  xm (_ <~ mwhen mutating (dec_right l hp 1) ;; mret (None, ts, tl))
                else if collapse && (idx =? 1) && match l with O => false | _ => true end then
                  xm (' (_, cs) <~ load_inner a ;;
                      c <~ mlift (rnthN cs 0) ;;
                      _ <~ mwhen (negb mutate) (inc c) ;;
                      _ <~ mwhen mutating (dec_right l hp 2) ;;
                      mret (Some (l, c), ts, tl))
                else
                  match hp with
                  | HRel _ _ =>
                      if mutate then
                        _ <- xm (p' <~ view hp ;;
                                 ks <~ mlift (heach_right l p' cs (idx + 1)) ;;
                                 hdecs l ks) ;;;
                        t <- ensure_relaxed a (Some idx) ;;;
                        xm (_ <~ cut_sizes t idx ;;
                            _ <~ cut_kids a idx ;;
                            mret (Some (v, a), ts, tl))
                      else
                        n <- make_inner_r v ;;;
                        xm (_ <~ do_copy_inner_r n a idx [] [] ;;
                            _ <~ mwhen mutating (hdec v hp) ;;
                            mret (Some (v, n), ts, tl))
                  | _ =>
                      if mutate then
                        xm (ks <~ mlift (heach_right l p cs (idx + 1)) ;;
                            _ <~ hdecs l ks ;;
                            _ <~ cut_kids a idx ;;
                            mret (Some (v, a), ts, tl))
                      else
                        n <- make_inner ;;;
                        xm (_ <~ do_copy_inner n a idx [] ;;
                            _ <~ mwhen mutating (hdec v hp) ;;
                            mret (Some (v, n), ts, tl))
                  end
            end
            (if mutate then mub
             else
               _ <~ match next with
                    | Some (_, c) =>
                        match l with
                        | O => mub
                        | S _ =>
                            match hp with
                            | HRel _ _ =>
                                p' <~ view hp ;;
                                sb <~ mlift (size_before B BL v p' idx) ;;
                                dec_inner l c (last + 1 - ts - sb)
                            | _ => dec_regular l c (last + 1 - ts)
                            end
                        end
                    | None => mret tt
                    end ;;
               dec_leaf tl ts)
    end.

  (** *** slice_left_mut_visitor: operations.hpp:1224-1396; with [mutating] false this is also
      slice_left_visitor (1398-1459). *)
  Fixpoint hslice_left (collapse mutating : bool) (v : nat) (hp : hpos) (first : N)
    : XX (nat * nat) :=
    a <- xm (mlift (haddr hp)) ;;;
    p <- xm (view hp) ;;;
    u <- xm (unique a) ;;;
    let mutate := mutating && u in
    k <- xm (mlift (count B BL v p)) ;;;
    match v with
    | O =>
        i <- xm (mlift (index B BL O p first)) ;;;
        if mutate && nm then
          xm (xs <~ load_leaf a ;;
              if lenN xs =? k then
                ys <~ mlift (rsliceN i k xs) ;; _ <~ put_leaf a ys ;; mret (O, a)
              else mub)
        else
          n <- hcopy_range a i k ;;;
          _ <- xm (mwhen mutating (hdec O hp)) ;;;
          xret (O, n)
    | S l =>
        idx <- xm (mlift (subindex B BL v p first)) ;;;
        left <- xm (mlift (size_before B BL v p idx)) ;;;
        csz <- xm (mlift (size_sbh B BL v p idx left)) ;;;
        ' (_, cs) <- xm (load_inner a) ;;;
        ' (kd, first') <- xm (mlift (htowards_sub l p cs first idx)) ;;;
        if collapse && match l with O => false | _ => true end && (idx + 1 =? k) then
          q <- xm (open l kd) ;;;
          r <- hslice_left true mutate l q first' ;;;
          _ <- xm (if mutate then dec_left l hp idx else mwhen mutating (hdec v hp)) ;;;
          xret r
        else
          n <- (if mutate then
                  _ <- match hp with
                       | HRel _ _ => ensure_relaxed a None
                       | _ => _ <- may_throw ;;;
                              xm (r <~ new (VTable v []) [] ;; _ <~ put_inner a (Some r) cs ;; mret r)
                       end ;;;
                  xret a
                else make_inner_r v) ;;;
          let s0 := csz - (first - left) in
          _ <- xtry
                 (q <- xm (open l kd) ;;;
                  ' (_, c) <- hslice_left false mutate l q first' ;;;
                  xm (_ <~ mwhen mutate (p' <~ view hp ;;
                                         ks <~ mlift (heach_left l p' cs idx) ;;
                                         hdecs l ks) ;;
                      p' <~ view hp ;;
                      sz' <~ mlift (copy_sizes B BL v p' (idx + 1) (k - idx - 1) s0) ;;
                      cs' <~ mlift (rsliceN (idx + 1) k cs) ;;
                      ' (r, _) <~ load_inner n ;;
                      _ <~ match r with
                           | Some r => put_table r (s0 :: sz')
                           | None => mub
                           end ;;
                      _ <~ put_inner n r (c :: cs') ;;
                      if mutate then mret tt
                      else _ <~ each_of inc cs' ;; mwhen mutating (hdec v hp)))
                 (if mutate then
                    match hp with
                    | HRel _ _ => mret tt
                    | _ => ' (r, cs) <~ load_inner a ;;
                           match r with
                           | Some r => _ <~ free r ;; put_inner a None cs
                           | None => mub
                           end
                    end
                  else delete_inner_r n) ;;;
          xret (v, n)
    end.
End VecHeap.
