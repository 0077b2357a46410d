(** Pushing, updating and concatenating the trees of flex_vector and of its transient, for the
    memory policy with a tracing garbage collector; on the memory of GcConcat.
    Source: /repo/immer/detail/rbts/operations.hpp:583-857, rrbtree.hpp:333-1329, node.hpp:205-943.

    Blocks are made in two ways: by a transient, with its token and room for as many entries as a
    block can have (make_inner_e, make_leaf_e), or by a vector, without token and with room for
    what is written (make_inner_n, make_leaf_n).  The argument [al] says which: [Some e] or [None].

    Simplifications: those of GcConcat.  The asserts on the tree as a whole (check_tree) are not
    modelled, and neither is the overflow of sizes (rrbtree.hpp:787). *)
From Coq Require Import List NArith Arith Bool.
From Verif Require Import Common NList Rrb GcConcat.
Import ListNotations.
Local Open Scope N_scope.

Section GcVec.
  Variables B BL : N.
  Context {T : Type}.
  Notation GG := (G T).
  Notation sh := (sh B BL).
  Notation width := (width B).
  Notation lwidth := (lwidth BL).
  Notation lmask := (lmask BL).

  (** *** Nodes *)
  (** The number of entries of a block for [n], of which there are at most [w]: sizeof_inner_n and
      max_sizeof_inner and the like. *)
  Definition gcap (al : option token) (w n : N) : res N :=
    match al with Some _ => Ok w | None => if n <=? w then Ok n else UB end.
  (** make_inner_n, make_inner_e: node.hpp:214-231; make_inner_r_n, make_inner_r_e: 233-257, 275-300;
      make_inner_sr_e, which shares the table: 303-318; make_leaf_n, make_leaf_e: 330-346. *)
  Definition gmk_inner (al : option token) (n : N) : GG nat :=
    k <~ glift (gcap al width n) ;; gnew (mkG al (GInner None (blank nat k))).
  Definition gmk_inner_r (al : option token) (n : N) : GG nat :=
    k <~ glift (gcap al width n) ;;
    r <~ gnew (mkG al (GTable (Some 0) (blank N k))) ;;
    gnew (mkG al (GInner (Some r) (blank nat k))).
  Definition gmk_inner_sr (e : token) (r : nat) : GG nat := gnew (mkG (Some e) (GInner (Some r) (blank nat width))).
  Definition gmk_leaf (al : option token) (n : N) : GG nat :=
    k <~ glift (gcap al lwidth n) ;; gnew (mkG al (GLeaf (blank T k))).

  (** An element, written to entry [i]. *)
  Definition gput_elem (a : nat) (i : N) (x : T) : GG unit :=
    xs <~ gleaf a ;; xs' <~ glift (write xs i [Some x]) ;; gput_leaf a xs'.
  (** uninitialized_copy of the entries of [src] from [i] to [j]. *)
  Definition gcopy_elems (src : nat) (i j : N) (dst : nat) (w : N) : GG unit :=
    xs <~ gleaf src ;;
    ys <~ glift (entries xs i j) ;;
    zs <~ gleaf dst ;;
    zs' <~ glift (write zs w (map Some ys)) ;;
    gput_leaf dst zs'.
  (** make_leaf_n and make_leaf_e with a first element: 458-485. *)
  Definition gleaf_with (al : option token) (x : T) : GG nat :=
    a <~ gmk_leaf al 1 ;; _ <~ gput_elem a 0 x ;; gret a.
  (** copy_leaf_e: 671-684, 749-762; copy_leaf: 655-668, 767-780. *)
  Definition gcopy_leaf (al : option token) (src : nat) (i j : N) : GG nat :=
    a <~ gmk_leaf al (j - i) ;; _ <~ gcopy_elems src i j a 0 ;; gret a.
  (** copy_leaf and copy_leaf_e of two leaves: 701-747. *)
  Definition gcopy_leaf2 (al : option token) (s1 : nat) (n1 : N) (s2 : nat) (n2 : N) : GG nat :=
    a <~ gmk_leaf al (n1 + n2) ;; _ <~ gcopy_elems s1 0 n1 a 0 ;; _ <~ gcopy_elems s2 0 n2 a n1 ;; gret a.
  (** copy_leaf_emplace: 782-795. *)
  Definition gcopy_emplace (src : nat) (n : N) (x : T) : GG nat :=
    a <~ gmk_leaf None (n + 1) ;; _ <~ gcopy_elems src 0 n a 0 ;; _ <~ gput_elem a n x ;; gret a.
  (** do_copy_inner, do_copy_inner_sr: 547-555, 612-622. *)
  Definition gcopy_kids (dst src : nat) (n : N) : GG unit :=
    ' (_, cs) <~ ginner src ;;
    ks <~ glift (entries cs 0 n) ;;
    ' (r, ds) <~ ginner dst ;;
    ds' <~ glift (write ds 0 (map Some ks)) ;;
    gput_inner dst r ds'.
  (** do_copy_inner_r: 596-610. *)
  Definition gcopy_kids_r (dst src : nat) (n : N) : GG unit :=
    sr <~ grelaxed src ;;
    dr <~ grelaxed dst ;;
    _ <~ gcopy_kids dst src n ;;
    ' (_, sz) <~ gtable sr ;;
    ys <~ glift (entries sz 0 n) ;;
    ' (_, ds) <~ gtable dr ;;
    ds' <~ glift (write ds 0 (map Some ys)) ;;
    gput_table dr (Some n) ds'.
  (** make_path, make_path_e: 487-521. *)
  Fixpoint gmake_path (al : option token) (v : nat) (tl : nat) : GG nat :=
    match v with
    | O => gret tl
    | S l => n <~ gmk_inner al 1 ;; c <~ gmake_path al l tl ;; _ <~ gset_kid n 0 c ;; gret n
    end.
  (** ensure_mutable_relaxed_n: 919-943. *)
  Definition gensure_relaxed_n (a : nat) (e : token) (n : N) : GG nat :=
    r <~ grelaxed a ;;
    u <~ gcan_mutate r e ;;
    if u then gret r
    else
      ' (_, sz) <~ gtable r ;;
      ys <~ glift (entries sz 0 n) ;;
      sz' <~ glift (write (blank N width) 0 (map Some ys)) ;;
      r' <~ gnew (mkG (Some e) (GTable (Some n) sz')) ;;
      ' (_, cs) <~ ginner a ;;
      _ <~ gput_inner a (Some r') cs ;;
      gret r'.

  (** *** push_tail *)
  (** size() and size(offset) of a relaxed position: position.hpp:1424, 1434-1443. *)
  Definition gtotal (r : nat) : GG N := n <~ gcount r ;; if n =? 0 then gub else gsize r (n - 1).
  Definition gsize_at (r : nat) (i : N) : GG N :=
    t <~ gsize r i ;; b <~ (if i =? 0 then gret 0 else gsize r (i - 1)) ;; gret (t - b).
  (** [mutate]: operations.hpp:686, 740. *)
  Definition gmutate (al : option token) (mu : bool) (a : nat) : GG bool :=
    match al with Some e => if mu then gcan_mutate a e else gret false | None => gret false end.
  (** The new child [c] at [i] of a relaxed node, in place and in a copy: 706-724, 804-813. *)
  Definition gfinish_mut (e : token) (a r : nat) (i : N) (c : nat) (ts : N) : GG (option nat) :=
    r' <~ gensure_relaxed_n a e i ;;
    _ <~ gset_kid a i c ;;
    s <~ gtotal r ;;
    _ <~ gset_size r' i (s + ts) ;;
    _ <~ gset_count r' (i + 1) ;;
    if s + ts =? 0 then gub else gret (Some a).
  Definition gfinish_copy (al : option token) (a r : nat) (i : N) (c : nat) (ts : N) : GG (option nat) :=
    b <~ gmk_inner_r al (i + 1) ;;
    _ <~ gcopy_kids_r b a i ;;
    r' <~ grelaxed b ;;
    _ <~ gset_kid b i c ;;
    s <~ gtotal r ;;
    _ <~ gset_size r' i (s + ts) ;;
    _ <~ gset_count r' (i + 1) ;;
    if s + ts =? 0 then gub else gret (Some b).
  Definition gfinish_push (al : option token) (mt : bool) (a r : nat) (i : N) (c : nat) (ts : N) : GG (option nat) :=
    match al, mt with
    | Some e, true => gfinish_mut e a r i c ts
    | _, _ => gfinish_copy al a r i c ts
    end.
  (** push_tail_mut_visitor<true> ([Some e], [mu]), push_tail_mut_visitor<false> ([Some e]) and
      push_tail_visitor ([None]): operations.hpp:662-857.  last_oh_csh and last_oh:
      position.hpp:1724-1738, 672-684. *)
  Fixpoint gpush (al : option token) (mu : bool) (v : nat) (g : gpos) (tl : nat) (ts : N) : GG (option nat) :=
    match v with
    | O => gub
    | S l =>
        match g with
        | GRel a r =>
            n <~ gcount r ;;
            if n =? 0 then gub
            else
              let idx := n - 1 in
              children <~ gsize_at r idx ;;
              mt <~ gmutate al mu a ;;
              if (children =? N.shiftl 1 (sh l)) || match l with O => true | _ => false end then
                if width <=? idx + 1 then gret None
                else c <~ gmake_path al l tl ;; gfinish_push al mt a r (idx + 1) c ts
              else if width <=? idx then gret None
              else
                x <~ gkid a idx ;;
                q <~ gchild B BL l x children ;;
                o <~ gpush al mt l q tl ts ;;
                match o with
                | Some c => gfinish_push al mt a r idx c ts
                | None =>
                    if idx + 1 <? width then
                      c <~ gmake_path al l tl ;; gfinish_push al mt a r (idx + 1) c ts
                    else gret None
                end
        | GReg a s | GSub a s =>
            q <~ gview g ;;
            if negb (N.land s lmask =? 0) then gub
            else
              idx <~ glift (index B BL v q (s - 1)) ;;
              new_idx <~ glift (index B BL v q (s + lwidth - 1)) ;;
              mt <~ gmutate al mu a ;;
              let child :=
                if idx =? new_idx then
                  x <~ gkid a idx ;;
                  if s =? 0 then gub
                  else
                    o <~ gpush al mt l (GReg x s) tl ts ;;
                    match o with Some c => gret c | None => gub end
                else gmake_path al l tl in
              if mt then c <~ child ;; _ <~ gset_kid a new_idx c ;; gret (Some a)
              else
                b <~ gmk_inner al (new_idx + 1) ;;
                c <~ child ;;
                _ <~ gset_kid b new_idx c ;;
                _ <~ gcopy_kids b a new_idx ;;
                gret (Some b)
        | _ => gub
        end
    end.

  (** push_tail ([None]): rrbtree.hpp:333-382; push_tail_mut ([Some e], [mu]): 384-432.  The new
      level and root. *)
  Definition gpush_tail (al : option token) (mu : bool) (x : gtree) (off : N) (tl : nat) (ts : N) : GG (nat * nat) :=
    let root := gt_root x in
    let l := gt_lv x in
    ' (r, _) <~ ginner root ;;
    match r with
    | Some r =>
        o <~ gpush al mu (S l) (GRel root r) tl ts ;;
        match o with
        | Some n => gret (l, n)
        | None =>
            n <~ gmk_inner_r al 2 ;;
            p <~ gmake_path al (S l) tl ;;
            _ <~ gset_kid n 0 root ;;
            _ <~ gset_kid n 1 p ;;
            nr <~ grelaxed n ;;
            _ <~ gset_size nr 0 off ;;
            _ <~ gset_size nr 1 (off + ts) ;;
            if (0 <? off) && (0 <? ts) then _ <~ gset_count nr 2 ;; gret (S l, n) else gub
        end
    | None =>
        if off =? N.shiftl width (sh l) then
          n <~ gmk_inner al 2 ;;
          p <~ gmake_path al (S l) tl ;;
          _ <~ gset_kid n 0 root ;;
          _ <~ gset_kid n 1 p ;;
          gret (S l, n)
        else if 0 <? off then
          g <~ gsub B BL (S l) root off ;;
          o <~ gpush al mu (S l) g tl ts ;;
          match o with Some n => gret (l, n) | None => gub end
        else n <~ gmake_path al (S l) tl ;; gret (l, n)
    end.

  (** ensure_mutable_tail: 434-441. *)
  Definition gensure_tail (e : token) (x : gtree) (n : N) : GG gtree :=
    u <~ gcan_mutate (gt_tail x) e ;;
    if u then gret x
    else t <~ gcopy_leaf (Some e) (gt_tail x) 0 n ;; gret (mkGT (gt_size x) (gt_lv x) (gt_root x) t).

  (** push_back_mut: 443-466. *)
  Definition gpush_back_mut (e : token) (x : gtree) (v : T) : GG gtree :=
    off <~ gtail_offset BL x ;;
    let ts := gt_size x - off in
    if ts <? lwidth then
      x' <~ gensure_tail e x ts ;;
      _ <~ gput_elem (gt_tail x') ts v ;;
      gret (mkGT (gt_size x + 1) (gt_lv x') (gt_root x') (gt_tail x'))
    else
      t <~ gleaf_with (Some e) v ;;
      ' (l, r) <~ gpush_tail (Some e) true x off (gt_tail x) ts ;;
      gret (mkGT (gt_size x + 1) l r t).
  (** push_back: 468-490. *)
  Definition gpush_back (x : gtree) (v : T) : GG gtree :=
    off <~ gtail_offset BL x ;;
    let ts := gt_size x - off in
    if ts <? lwidth then
      t <~ gcopy_emplace (gt_tail x) ts v ;;
      gret (mkGT (gt_size x + 1) (gt_lv x) (gt_root x) t)
    else
      t <~ gleaf_with None v ;;
      ' (l, r) <~ gpush_tail None false x off (gt_tail x) ts ;;
      gret (mkGT (gt_size x + 1) l r t).

  (** *** update_mut *)
  (** towards_oh, towards_oh_ch: position.hpp:623-646, 1312-1335, 1669-1692. *)
  Definition gtowards (l : nat) (g : gpos) (idx off : N) : GG (gpos * N) :=
    match g with
    | GReg a s | GSub a s =>
        c <~ gkid a off ;;
        q <~ gview g ;;
        k <~ glift (count B BL (S l) q) ;;
        if off + 1 =? k then (if s =? 0 then gub else gret (GReg c s, idx)) else gret (GFull c, idx)
    | GFull a => c <~ gkid a off ;; gret (GFull c, idx)
    | GRel a r =>
        left <~ (if off =? 0 then gret 0 else gsize r (off - 1)) ;;
        c <~ gkid a off ;;
        t <~ gsize r off ;;
        q <~ gchild B BL l c (t - left) ;;
        gret (q, idx - left)
    | _ => gub
    end.
  (** get_mut_visitor: operations.hpp:583-660.  What is written to [*location], if anything, and
      the leaf and the entry that the reference refers to. *)
  Fixpoint gget_mut (e : token) (v : nat) (g : gpos) (idx : N) : GG (option nat * (nat * N)) :=
    a <~ glift (gaddr g) ;;
    q <~ gview g ;;
    off <~ glift (index B BL v q idx) ;;
    u <~ gcan_mutate a e ;;
    match v with
    | O =>
        if u then gret (None, (a, off))
        else
          k <~ glift (count B BL O q) ;;
          b <~ gcopy_leaf (Some e) a 0 k ;;
          gret (Some b, (b, off))
    | S l =>
        if u then
          ' (p, idx') <~ gtowards l g idx off ;;
          ' (o, w) <~ gget_mut e l p idx' ;;
          _ <~ match o with Some c => gset_kid a off c | None => gret tt end ;;
          gret (None, w)
        else
          k <~ glift (count B BL v q) ;;
          b <~ match g with GRel _ r => gmk_inner_sr e r | _ => gmk_inner (Some e) k end ;;
          _ <~ gcopy_kids b a k ;;
          ' (p, idx') <~ gtowards l g idx off ;;
          ' (o, w) <~ gget_mut e l p idx' ;;
          _ <~ match o with Some c => gset_kid b off c | None => gret tt end ;;
          gret (Some b, w)
    end.
  (** get_mut: rrbtree.hpp:506-522; update_mut: 541-546, and assoc_mut with a constant function. *)
  Definition gupdate_mut (e : token) (x : gtree) (idx : N) (fn : T -> T) : GG gtree :=
    off <~ gtail_offset BL x ;;
    ' (x', w) <~
      (if off <=? idx then
         x' <~ gensure_tail e x (gt_size x - off) ;;
         gret (x', (gt_tail x', N.land (idx - off) lmask))
       else
         g <~ gmaybe B BL (S (gt_lv x)) (gt_root x) off ;;
         ' (o, w) <~ gget_mut e (S (gt_lv x)) g idx ;;
         gret (match o with Some r => mkGT (gt_size x) (gt_lv x) r (gt_tail x) | None => x end, w)) ;;
    let '(lf, i) := w in
    xs <~ gleaf lf ;;
    y <~ glift (entry xs i) ;;
    _ <~ gput_elem lf i (fn y) ;;
    gret x'.

  (** *** Concatenation *)
  (** The elements of the tail of [y] up to [n] go to the tail of [x] at [ts]: by moving them when
      [y] is given up and its tail may be overwritten: 1085-1109. *)
  Definition gfill_tail (mv : option token) (x y : gtree) (ts n : N) : GG unit :=
    u <~ match mv with Some er => gcan_mutate (gt_tail y) er | None => gret false end ;;
    _ <~ gcopy_elems (gt_tail y) 0 n (gt_tail x) ts ;;
    if u then
      xs <~ gleaf (gt_tail y) ;; xs' <~ glift (write xs 0 (blank T n)) ;; gput_leaf (gt_tail y) xs'
    else gret tt.
  (** concat_mut_l ([mv] is [None]): 784-908; concat_mut_lr_l ([Some er]): 1053-1186.  [noone] is
      the token that no block has (gc_transience_policy.hpp:104-110). *)
  Definition gappend (noone el : token) (mv : option token) (x y : gtree) : GG gtree :=
    if gt_size x =? 0 then gret y
    else if gt_size y =? 0 then gret x
    else
      roff <~ gtail_offset BL y ;;
      if roff =? 0 then
        off <~ gtail_offset BL x ;;
        let ts := gt_size x - off in
        let size := gt_size x + gt_size y in
        if ts =? lwidth then
          ' (l, r) <~ gpush_tail (Some el) true x off (gt_tail x) ts ;;
          gret (mkGT size l r (gt_tail y))
        else if ts + gt_size y <=? lwidth then
          x' <~ gensure_tail el x ts ;;
          _ <~ gfill_tail mv x' y ts (gt_size y) ;;
          gret (mkGT size (gt_lv x') (gt_root x') (gt_tail x'))
        else
          let remaining := lwidth - ts in
          x' <~ gensure_tail el x ts ;;
          _ <~ gfill_tail mv x' y ts remaining ;;
          nt <~ gcopy_leaf (Some el) (gt_tail y) remaining (gt_size y) ;;
          ' (l, r) <~ gpush_tail (Some el) true x' off (gt_tail x') lwidth ;;
          gret (mkGT size l r nt)
      else gconcat_mut B BL el el (match mv with Some er => er | None => noone end) x y.
  (** concat_mut_r ([mv] is [None]): 911-1050; concat_mut_lr_r ([Some el]): 1189-1329. *)
  Definition gprepend (noone er : token) (mv : option token) (x y : gtree) : GG gtree :=
    if gt_size y =? 0 then gret x
    else if gt_size x =? 0 then gret y
    else
      roff <~ gtail_offset BL y ;;
      if roff =? 0 then
        off <~ gtail_offset BL x ;;
        let ts := gt_size x - off in
        let size := gt_size x + gt_size y in
        if ts =? lwidth then
          ' (l, r) <~ gpush_tail None false x off (gt_tail x) ts ;;
          gret (mkGT size l r (gt_tail y))
        else if ts + gt_size y <=? lwidth then
          t <~ gcopy_leaf2 None (gt_tail x) ts (gt_tail y) (gt_size y) ;;
          gret (mkGT size (gt_lv x) (gt_root x) t)
        else
          let remaining := lwidth - ts in
          add <~ gcopy_leaf2 (Some er) (gt_tail x) ts (gt_tail y) remaining ;;
          nt <~ gcopy_leaf (Some er) (gt_tail y) remaining (gt_size y) ;;
          ' (l, r) <~ gpush_tail None false x off add lwidth ;;
          gret (mkGT size l r nt)
      else gconcat_mut B BL er (match mv with Some el => el | None => noone end) er x y.
End GcVec.
