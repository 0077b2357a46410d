(** Concatenation in place of the trees of flex_vector, for the memory policy with a tracing
    garbage collector.  Source: /repo/immer/detail/rbts/operations.hpp:2006-2504 (in place) on
    top of 1461-1813, position.hpp and node.hpp; rrbtree.hpp:784-1329.

    A block carries the token of its owner (transience/gc_transience_policy.hpp:85-102); a block
    whose owner is the token of the caller may be overwritten.  Blocks are never freed and
    never counted (no_refcount_policy), so can_mutate (node.hpp:858-861) is the comparison of
    tokens.  A block is an array: a leaf of elements, the children of an inner node or the sizes
    of a table, as long as the block that was allocated.  [None] is an entry that was not written
    or was moved from; reading one is [UB], and so is access outside of the array.

    The positions visit children while the same nodes are overwritten, so the reads happen here
    when they happen in the code: a child and its size are read when their turn comes, and the
    running size of a relaxed position is read again after the visit.

    Simplifications: size tables are blocks of their own (embed_relaxed is false, node.hpp:60-70,
    which is what the default for gc_heap gives, memory_policy.hpp:42-47), so can_relax
    (node.hpp:863) is true.  [n_] of the merger is only ever decremented and is left out.
    Exceptions are not modelled: abort (operations.hpp:2200-2207) ends the program. *)
From Coq Require Import List NArith Arith Bool.
From Verif Require Import Common NList Rrb.
Import ListNotations.
Local Open Scope N_scope.

(** *** Memory *)
Definition token : Type := nat.
Inductive gbody (T : Type) : Type :=
| GLeaf (xs : list (option T))
| GInner (r : option nat) (cs : list (option nat))
| GTable (n : option N) (sz : list (option N)).
Arguments GLeaf {T}. Arguments GInner {T}. Arguments GTable {T}.
Record gcell (T : Type) : Type := mkG { g_own : option token; g_body : gbody T }.
Arguments mkG {T}. Arguments g_own {T}. Arguments g_body {T}.
Definition gheap (T : Type) : Type := list (gcell T).

(** Programs over it. *)
Definition G (T A : Type) : Type := gheap T -> res (A * gheap T).
Definition gret {T A} (a : A) : G T A := fun h => Ok (a, h).
Definition gbind {T A C} (m : G T A) (k : A -> G T C) : G T C :=
  fun h => match m h with Ok (a, h') => k a h' | UB => UB end.
Definition glift {T A} (r : res A) : G T A :=
  fun h => match r with Ok a => Ok (a, h) | UB => UB end.
Definition gub {T A} : G T A := fun _ => UB.
Notation "x <~ m ;; k" := (gbind m (fun x => k))
  (at level 61, m at next level, right associativity).
Notation "' p <~ m ;; k" := (gbind m (fun x => match x with p => k end))
  (at level 61, p pattern, m at next level, right associativity).

(** Entries of an array. *)
Definition got {A} (o : option A) : res A := match o with Some x => Ok x | None => UB end.
Definition entry {A} (l : list (option A)) (i : N) : res A := o <- rnthN l i ;; got o.
Definition entries {A} (l : list (option A)) (i j : N) : res (list A) :=
  s <- rsliceN i j l ;; rmap got s.
Definition write {A} (l : list (option A)) (i : N) (ys : list (option A)) : res (list (option A)) :=
  if i + lenN ys <=? lenN l then Ok (takeN i l ++ ys ++ dropN (i + lenN ys) l) else UB.
(** The destination of std::copy and std::move is not inside of the source. *)
Definition no_overlap (src n dst : N) : bool := (dst <? src) || (src + n <=? dst).

(** The merger of operations.hpp:2009-2050.  [gm_nodes] and [gm_sizes] are result_.nodes_ and
    result_.sizes_, last first. *)
Record gmerger : Type := mkGM
  { gm_curr : list N; gm_nodes : list nat; gm_sizes : list N; gm_cnt : N;
    gm_cand : option (token * nat); gm_to : option nat; gm_off : N; gm_tosize : N }.

(** Positions (position.hpp) on addresses; see [pos] in Rrb.  A relaxed position keeps the table
    it was made with (position.hpp:1413-1418). *)
Inductive gpos : Type :=
| GFull (a : nat)
| GReg (a : nat) (s : N)
| GSub (a : nat) (s : N)
| GRel (a : nat) (r : nat)
| GSingle (a : nat) (c : N)
| GNone.

(** concat_center_pos: operations.hpp:1461-1504. *)
Record gcenter : Type := mkGC { gc_lv : nat; gc_nodes : list nat; gc_sizes : list N }.

(** The rrbtree object: rrbtree.hpp:38-41. *)
Record gtree : Type := mkGT { gt_size : N; gt_lv : nat; gt_root : nat; gt_tail : nat }.

Section GcConcat.
  Variables B BL : N.
  Context {T : Type}.
  Notation GG := (G T).
  Notation sh := (sh B BL).
  Notation width := (width B).
  Notation lwidth := (lwidth BL).
  Notation nil_node := (Leaf [] : node T).

  Definition gload (a : nat) : GG (gcell T) :=
    fun h => match nth_error h a with Some c => Ok (c, h) | None => UB end.
  Definition gstore (a : nat) (c : gcell T) : GG unit :=
    fun h => match nth_error h a with Some _ => Ok (tt, update_at a c h) | None => UB end.
  Definition gnew (c : gcell T) : GG nat := fun h => Ok (length h, h ++ [c]).

  (** leaf(), inner(), relaxed(), d.count and d.sizes: node.hpp:150-187. *)
  Definition gleaf (a : nat) : GG (list (option T)) :=
    c <~ gload a ;; match g_body c with GLeaf xs => gret xs | _ => gub end.
  Definition ginner (a : nat) : GG (option nat * list (option nat)) :=
    c <~ gload a ;; match g_body c with GInner r cs => gret (r, cs) | _ => gub end.
  Definition gtable (r : nat) : GG (option N * list (option N)) :=
    c <~ gload r ;; match g_body c with GTable n sz => gret (n, sz) | _ => gub end.
  Definition gput_leaf (a : nat) (xs : list (option T)) : GG unit :=
    c <~ gload a ;; match g_body c with GLeaf _ => gstore a (mkG (g_own c) (GLeaf xs)) | _ => gub end.
  Definition gput_inner (a : nat) (r : option nat) (cs : list (option nat)) : GG unit :=
    c <~ gload a ;; match g_body c with GInner _ _ => gstore a (mkG (g_own c) (GInner r cs)) | _ => gub end.
  Definition gput_table (r : nat) (n : option N) (sz : list (option N)) : GG unit :=
    c <~ gload r ;; match g_body c with GTable _ _ => gstore r (mkG (g_own c) (GTable n sz)) | _ => gub end.
  (** node->inner()[i], relaxed->d.sizes[i], relaxed->d.count. *)
  Definition gkid (a : nat) (i : N) : GG nat := ' (_, cs) <~ ginner a ;; glift (entry cs i).
  Definition gsize (r : nat) (i : N) : GG N := ' (_, sz) <~ gtable r ;; glift (entry sz i).
  Definition gcount (r : nat) : GG N := ' (n, _) <~ gtable r ;; glift (got n).
  Definition gset_kid (a : nat) (i : N) (p : nat) : GG unit :=
    ' (r, cs) <~ ginner a ;; cs' <~ glift (write cs i [Some p]) ;; gput_inner a r cs'.
  Definition gset_size (r : nat) (i s : N) : GG unit :=
    ' (n, sz) <~ gtable r ;; sz' <~ glift (write sz i [Some s]) ;; gput_table r n sz'.
  Definition gset_count (r : nat) (n : N) : GG unit := ' (_, sz) <~ gtable r ;; gput_table r (Some n) sz.
  Definition grelaxed (a : nat) : GG nat :=
    ' (r, _) <~ ginner a ;; match r with Some r => gret r | None => gub end.
  (** ownee(x) = e: gc_transience_policy.hpp:89-97. *)
  Definition gset_owner (a : nat) (e : token) : GG unit :=
    c <~ gload a ;; gstore a (mkG (Some e) (g_body c)).
  (** can_mutate: node.hpp:858-861, gc_transience_policy.hpp:99. *)
  Definition owned_by (c : gcell T) (e : token) : bool :=
    match g_own c with Some t => Nat.eqb t e | None => false end.
  Definition gcan_mutate (a : nat) (e : token) : GG bool := c <~ gload a ;; gret (owned_by c e).

  (** make_inner_r_e: node.hpp:273-301; make_leaf_e: 337-346. *)
  Definition blank (A : Type) (n : N) : list (option A) := repeat None (N.to_nat n).
  Definition gmake_inner_r (e : token) : GG nat :=
    r <~ gnew (mkG (Some e) (GTable (Some 0) (blank N width))) ;;
    gnew (mkG (Some e) (GInner (Some r) (blank nat width))).
  Definition gmake_leaf (e : token) : GG nat := gnew (mkG (Some e) (GLeaf (blank T lwidth))).
  (** ensure_mutable_relaxed_e: node.hpp:892-917.  A node without a table gets one whose count
      and sizes are not written. *)
  Definition gensure_relaxed (a : nat) (e ec : token) : GG nat :=
    ' (r, cs) <~ ginner a ;;
    match r with
    | Some r =>
        u <~ gcan_mutate r e ;;
        if u then _ <~ gset_owner r ec ;; gret r
        else
          n <~ gcount r ;;
          ' (_, sz) <~ gtable r ;;
          ys <~ glift (entries sz 0 n) ;;
          sz' <~ glift (write (blank N width) 0 (map Some ys)) ;;
          r' <~ gnew (mkG (Some ec) (GTable (Some n) sz')) ;;
          _ <~ gput_inner a (Some r') cs ;;
          gret r'
    | None =>
        r' <~ gnew (mkG (Some ec) (GTable None (blank N width))) ;;
        _ <~ gput_inner a (Some r') cs ;;
        gret r'
    end.

  (** *** Positions *)
  Definition gaddr (p : gpos) : res nat :=
    match p with GFull a | GReg a _ | GSub a _ | GRel a _ => Ok a | GSingle _ _ | GNone => UB end.
  (** node() of the left or right position: 697 and 727 give null. *)
  Definition gnode (p : gpos) : option nat :=
    match p with GFull a | GReg a _ | GSub a _ | GRel a _ => Some a | GSingle _ _ | GNone => None end.
  (** The numbers a position works with. *)
  Definition gview (p : gpos) : GG (pos T) :=
    match p with
    | GFull _ => gret (PFull nil_node)
    | GReg _ s => gret (PReg nil_node s)
    | GSub _ s => gret (PSub nil_node s)
    | GRel _ r =>
        n <~ gcount r ;; ' (_, sz) <~ gtable r ;; ys <~ glift (entries sz 0 n) ;; gret (PRel nil_node ys)
    | GSingle _ c => gret (PSingle nil_node c)
    | GNone => gret PNone
    end.
  (** make_leaf_sub_pos, make_regular_sub_pos, visit_maybe_relaxed_sub: 148-154, 1033-1042,
      1827-1841. *)
  Definition gsub (v : nat) (a : nat) (s : N) : GG gpos :=
    _ <~ glift (mk_sub B BL v nil_node s) ;; gret (GSub a s).
  Definition gmaybe (v : nat) (a : nat) (s : N) : GG gpos :=
    ' (r, _) <~ ginner a ;;
    match r with
    | None => gsub v a s
    | Some r =>
        n <~ gcount r ;;
        t <~ (if n =? 0 then gub else gsize r (n - 1)) ;;
        if t =? s then gret (GRel a r) else gub
    end.
  Definition gchild (v : nat) (a : nat) (s : N) : GG gpos :=
    match v with O => gsub O a s | S _ => gmaybe v a s end.

  (** *** Visits *)
  Section Visits.
    Context {S : Type}.
    Variable V : S -> gpos -> GG S.

    Definition range (i j : N) : list N := map N.of_nat (seq (N.to_nat i) (N.to_nat (j - i))).
    (** each_left_regular, each_i: full children: position.hpp:571-591, 1253-1268. *)
    Fixpoint geach_full (a : nat) (is : list N) (s : S) : GG S :=
      match is with
      | [] => gret s
      | i :: is' => c <~ gkid a i ;; s' <~ V s (GFull c) ;; geach_full a is' s'
      end.
    (** One turn of the loops of relaxed positions (1613-1635, 1643-1667): child [i], with [prev]
        as the size before it.  The new size before is read after the visit. *)
    Definition grel_turn (l : nat) (a r : nat) (i prev : N) (s : S) : GG (S * N) :=
      c <~ gkid a i ;;
      t <~ gsize r i ;;
      p <~ gchild l c (t - prev) ;;
      s' <~ V s p ;;
      t' <~ gsize r i ;;
      gret (s', t').
    (** each_left: 1613-1635. *)
    Fixpoint grel_left (l : nat) (a r : nat) (is : list N) (prev : N) (s : S) : GG S :=
      match is with
      | [] => gret s
      | i :: is' => ' (s', t) <~ grel_turn l a r i prev s ;; grel_left l a r is' t s'
      end.
    (** each_right: 1643-1667; the count is read before every turn. *)
    Fixpoint grel_right (fuel : nat) (l : nat) (a r : nat) (i prev : N) (s : S) : GG S :=
      n <~ gcount r ;;
      if i <? n then
        match fuel with
        | O => gub
        | Datatypes.S f => ' (s', t) <~ grel_turn l a r i prev s ;; grel_right f l a r (i + 1) t s'
        end
      else gret s.
    (** each_left_sub: 903-907, 1288-1292, 1607-1611; 705-707 and 736-739 visit nothing. *)
    Definition gleft_subs (l : nat) (p : gpos) (s : S) : GG S :=
      match p with
      | GSub a z =>
          c <~ glift (count B BL (Datatypes.S l) (PSub nil_node z)) ;; geach_full a (range 0 (c - 1)) s
      | GFull a => geach_full a (range 0 (width - 1)) s
      | GRel a r => n <~ gcount r ;; if n =? 0 then gub else grel_left l a r (range 0 (n - 1)) 0 s
      | GSingle _ _ | GNone => gret s
      | GReg _ _ => gub
      end.
    (** each_right_sub: 869-888, 896-901, 1294-1298, 1637-1641; 702-704 visits nothing. *)
    Definition gright_subs (l : nat) (p : gpos) (s : S) : GG S :=
      match p with
      | GSub a z =>
          c <~ glift (count B BL (Datatypes.S l) (PSub nil_node z)) ;;
          if 1 <? c then
            o <~ glift (shl32 (c - 1) (sh l)) ;;
            s' <~ geach_full a (range 1 (c - 1)) s ;;
            x <~ gkid a (c - 1) ;;
            q <~ gsub l x (z - o) ;;
            V s' q
          else gret s
      | GFull a => geach_full a (range 1 width) s
      | GRel a r =>
          n <~ gcount r ;;
          if n =? 0 then gub
          else t <~ gsize r 0 ;; grel_right (N.to_nat width) l a r 1 t s
      | GNone => gret s
      | GReg _ _ | GSingle _ _ => gub
      end.
    (** concat_center_pos::each_sub: operations.hpp:1506-1520. *)
    Fixpoint gleaf_subs (ns : list nat) (sz : list N) (prev : N) (s : S) : GG S :=
      match ns, sz with
      | n :: ns', t :: sz' => p <~ gsub O n (t - prev) ;; s' <~ V s p ;; gleaf_subs ns' sz' t s'
      | _, _ => gret s
      end.
    Fixpoint ginner_subs (ns : list nat) (s : S) : GG S :=
      match ns with
      | [] => gret s
      | n :: ns' => r <~ grelaxed n ;; s' <~ V s (GRel n r) ;; ginner_subs ns' s'
      end.
    Definition gcenter_subs (c : gcenter) (s : S) : GG S :=
      match gc_lv c with
      | O => gleaf_subs (gc_nodes c) (gc_sizes c) 0 s
      | Datatypes.S _ => ginner_subs (gc_nodes c) s
      end.
  End Visits.

  (** last_sub: 948-958, 1740-1750, 743-747; first_sub: 960-974, 1351-1358, 1752-1762. *)
  Definition glast_sub (l : nat) (p : gpos) : GG gpos :=
    match p with
    | GSub a s =>
        c <~ glift (count B BL (S l) (PSub nil_node s)) ;;
        x <~ gkid a (c - 1) ;; gsub l x (s - N.shiftl (c - 1) (sh l))
    | GRel a r =>
        n <~ gcount r ;;
        if n =? 0 then gub
        else
          x <~ gkid a (n - 1) ;;
          t <~ gsize r (n - 1) ;;
          b <~ (if n - 1 =? 0 then gret 0 else gsize r (n - 1 - 1)) ;;
          gchild l x (t - b)
    | GSingle a c => gsub O a c
    | _ => gub
    end.
  Definition gfirst_sub (l : nat) (p : gpos) : GG gpos :=
    match p with
    | GSub a s => x <~ gkid a 0 ;; if N.shiftl 1 (sh l) <=? s then gret (GFull x) else gsub l x s
    | GFull a => x <~ gkid a 0 ;; gret (GFull x)
    | GRel a r => x <~ gkid a 0 ;; t <~ gsize r 0 ;; gchild l x t
    | _ => gub
    end.

  (** copy_sizes: 801-813, 1166-1173, 1453-1464, into the table [d] from [w] on.  The one of a
      relaxed position reads and writes in turns. *)
  Fixpoint gcopy_rel (k : nat) (r d : nat) (o w prev init : N) : GG unit :=
    match k with
    | O => gret tt
    | S k' =>
        t <~ gsize r o ;;
        let init' := init + (t - prev) in
        _ <~ gset_size d w init' ;;
        gcopy_rel k' r d (o + 1) (w + 1) t init'
    end.
  Definition gcopy_sizes (v : nat) (p : gpos) (o n init : N) (d : nat) (w : N) : GG unit :=
    match p with
    | GRel _ r =>
        prev <~ (if o =? 0 then gret 0 else gsize r (o - 1)) ;; gcopy_rel (N.to_nat n) r d o w prev init
    | _ =>
        q <~ gview p ;;
        ys <~ glift (copy_sizes B BL v q o n init) ;;
        ' (k, sz) <~ gtable d ;;
        sz' <~ glift (write sz w (map Some ys)) ;;
        gput_table d k sz'
    end.

  (** *** concat_merger_mut *)
  Definition set_to (m : gmerger) (to : option nat) (off tosize : N) : gmerger :=
    mkGM (gm_curr m) (gm_nodes m) (gm_sizes m) (gm_cnt m) (gm_cand m) to off tosize.
  (** [*curr_]. *)
  Definition gcurr (m : gmerger) : res N := match gm_curr m with c :: _ => Ok c | [] => UB end.

  (** constructor: 2029-2046.  [cand] is the left node when it may be overwritten. *)
  Definition gmerger_init (ec : token) (counts : list N) (cand : option (token * nat)) : GG gmerger :=
    n <~ match cand with
         | Some (e, a) => _ <~ gensure_relaxed a e ec ;; gret a
         | None => gmake_inner_r ec
         end ;;
    gret (mkGM counts [n] [0] 0 None None 0 0).
  (** set_candidate: 2052-2056. *)
  Definition set_candidate (m : gmerger) (cand : option (token * nat)) : gmerger :=
    match cand with
    | Some _ => mkGM (gm_curr m) (gm_nodes m) (gm_sizes m) (gm_cnt m) cand (gm_to m) (gm_off m) (gm_tosize m)
    | None => m
    end.

  (** add_child: 2058-2088. *)
  Definition gadd_child (ec : token) (p : nat) (sz : N) (m : gmerger) : GG gmerger :=
    if sz =? 0 then gub
    else
      match gm_curr m, gm_nodes m, gm_sizes m with
      | _ :: curr, n :: ns, t :: ts =>
          r <~ grelaxed n ;;
          ' (cand, nodes, sizes, cnt, r) <~
            (if gm_cnt m =? width then
               _ <~ gset_count r (gm_cnt m) ;;
               if lenN (n :: ns) <? 3 then
                 par <~ match gm_cand m with
                        | Some (e, a) => _ <~ gensure_relaxed a e ec ;; gret a
                        | None => gmake_inner_r ec
                        end ;;
                 r' <~ grelaxed par ;;
                 gret (None, par :: n :: ns, t :: t :: ts, 0, r')
               else gub
             else gret (gm_cand m, n :: ns, t :: ts, gm_cnt m, r)) ;;
          prev <~ (if cnt =? 0 then gret 0 else gsize r (cnt - 1)) ;;
          _ <~ gset_size r cnt (sz + prev) ;;
          _ <~ gset_kid (hd O nodes) cnt p ;;
          gret (mkGM curr nodes (hd 0 sizes + sz :: tl sizes) (cnt + 1) cand (gm_to m) (gm_off m) (gm_tosize m))
      | _, _, _ => gub
      end.

  (** merge_leaf: 2090-2143.  The node that is filled: 2105-2114. *)
  Definition gleaf_to (ec : token) (from : nat) (fm : bool) (m : gmerger) : GG gmerger :=
    match gm_to m with
    | Some _ => gret m
    | None =>
        if fm then _ <~ gset_owner from ec ;; gret (set_to m (Some from) 0 (gm_tosize m))
        else a <~ gmake_leaf ec ;; gret (set_to m (Some a) 0 (gm_tosize m))
    end.
  (** [n] elements of [from] from [fo] on to [to] at [off]: 2115-2134. *)
  Definition gmove_leaf (from : nat) (fm : bool) (to : nat) (fo off n : N) : GG unit :=
    if Nat.eqb from to then
      if fo =? off then gret tt
      else if no_overlap fo n off then
        xs <~ gleaf from ;;
        ys <~ glift (entries xs fo (fo + n)) ;;
        xs1 <~ glift (write xs fo (blank T n)) ;;
        xs2 <~ glift (write xs1 off (map Some ys)) ;;
        gput_leaf from xs2
      else gub
    else
      xs <~ gleaf from ;;
      ys <~ glift (entries xs fo (fo + n)) ;;
      zs <~ gleaf to ;;
      zs' <~ glift (write zs off (map Some ys)) ;;
      _ <~ gput_leaf to zs' ;;
      if fm then xs' <~ glift (write xs fo (blank T n)) ;; gput_leaf from xs' else gret tt.
  (** The loop; the first [fo] of the [k] elements of [from] are done. *)
  Fixpoint gmerge_leaf_go (fuel : nat) (ec : token) (from : nat) (fm : bool) (k fo : N) (m : gmerger)
    : GG gmerger :=
    match fuel with
    | O => gub
    | S f =>
        cur <~ glift (gcurr m) ;;
        m1 <~ gleaf_to ec from fm m ;;
        match gm_to m1 with
        | None => gub
        | Some to =>
            let off := gm_off m1 in
            if cur <? off then gub
            else
              let n := N.min (k - fo) (cur - off) in
              _ <~ gmove_leaf from fm to fo off n ;;
              let m2 := set_to m1 (Some to) (off + n) (gm_tosize m1) in
              m3 <~ (if cur =? off + n then
                       m' <~ gadd_child ec to (off + n) m2 ;; gret (set_to m' None (off + n) (gm_tosize m'))
                     else gret m2) ;;
              if fo + n =? k then gret m3 else gmerge_leaf_go f ec from fm k (fo + n) m3
        end
    end.
  Definition gmerge_leaf (ec e : token) (m : gmerger) (p : gpos) : GG gmerger :=
    from <~ glift (gaddr p) ;;
    q <~ gview p ;;
    sz <~ glift (psize B BL O q) ;;
    k <~ glift (count B BL O q) ;;
    cur <~ glift (gcurr m) ;;
    if sz =? 0 then gub
    else
      let copy := fm <~ gcan_mutate from e ;; gmerge_leaf_go (S (N.to_nat k)) ec from fm k 0 m in
      match gm_to m with
      | Some _ => copy
      | None => if cur =? k then gadd_child ec from sz m else copy
      end.

  (** merge_inner: 2145-2191, on nodes of level [v]; [p] is the position of [from].  The node
      that is filled: 2159-2169. *)
  Definition ginner_to (ec e : token) (from : nat) (fm : bool) (m : gmerger) : GG gmerger :=
    match gm_to m with
    | Some _ => gret m
    | None =>
        if fm then
          _ <~ gset_owner from ec ;; _ <~ gensure_relaxed from e ec ;; gret (set_to m (Some from) 0 0)
        else a <~ gmake_inner_r ec ;; gret (set_to m (Some a) 0 0)
    end.
  (** [n] children of [from] from [fo] on to [to] at [off], with their sizes to [rt]: 2170-2180. *)
  Definition gmove_inner (v : nat) (p : gpos) (from to rt : nat) (fo off n ts : N) : GG unit :=
    if negb (Nat.eqb from to) || negb (fo =? off) then
      if negb (Nat.eqb from to) || no_overlap fo n off then
        ' (_, cs) <~ ginner from ;;
        ks <~ glift (entries cs fo (fo + n)) ;;
        ' (r, ds) <~ ginner to ;;
        ds' <~ glift (write ds off (map Some ks)) ;;
        _ <~ gput_inner to r ds' ;;
        gcopy_sizes v p fo n ts rt off
      else gub
    else gret tt.
  Fixpoint gmerge_inner_go (fuel : nat) (ec e : token) (v : nat) (p : gpos) (from : nat) (fm : bool)
    (k fo : N) (m : gmerger) : GG gmerger :=
    match fuel with
    | O => gub
    | S f =>
        cur <~ glift (gcurr m) ;;
        m1 <~ ginner_to ec e from fm m ;;
        match gm_to m1 with
        | None => gub
        | Some to =>
            let off := gm_off m1 in
            if cur <? off then gub
            else
              let n := N.min (k - fo) (cur - off) in
              rt <~ grelaxed to ;;
              _ <~ gmove_inner v p from to rt fo off n (gm_tosize m1) ;;
              ts <~ (if off + n =? 0 then gub else gsize rt (off + n - 1)) ;;
              let m2 := set_to m1 (Some to) (off + n) ts in
              m3 <~ (if cur =? off + n then
                       _ <~ gset_count rt (off + n) ;;
                       m' <~ gadd_child ec to ts m2 ;; gret (set_to m' None (off + n) ts)
                     else gret m2) ;;
              if fo + n =? k then gret m3 else gmerge_inner_go f ec e v p from fm k (fo + n) m3
        end
    end.
  Definition gmerge_inner (ec e : token) (v : nat) (m : gmerger) (p : gpos) : GG gmerger :=
    from <~ glift (gaddr p) ;;
    q <~ gview p ;;
    sz <~ glift (psize B BL v q) ;;
    k <~ glift (count B BL v q) ;;
    cur <~ glift (gcurr m) ;;
    if sz =? 0 then gub
    else
      let copy := fm <~ gcan_mutate from e ;; gmerge_inner_go (S (N.to_nat k)) ec e v p from fm k 0 m in
      match gm_to m with
      | Some _ => copy
      | None => if cur =? k then gadd_child ec from sz m else copy
      end.

  (** concat_merger_mut_visitor: 2210-2225. *)
  Definition gvisit (cl : nat) (ec e : token) (m : gmerger) (p : gpos) : GG gmerger :=
    match cl with O => gmerge_leaf ec e m p | S _ => gmerge_inner ec e cl m p end.

  (** finish: 2193-2198. *)
  Definition gfinish (cl : nat) (m : gmerger) : GG gcenter :=
    match gm_to m, gm_nodes m with
    | None, n :: _ =>
        r <~ grelaxed n ;;
        _ <~ gset_count r (gm_cnt m) ;;
        gret (mkGC (S cl) (rev (gm_nodes m)) (rev (gm_sizes m)))
    | _, _ => gub
    end.

  (** The node of a side when it may be overwritten: 2243-2246. *)
  Definition gcandidate (p : gpos) (e : token) : GG (option (token * nat)) :=
    match gnode p with
    | None => gret None
    | Some a => u <~ gcan_mutate a e ;; gret (if u then Some (e, a) else None)
    end.
  (** concat_rebalance_plan_mut::merge: 2227-2266. *)
  Definition gmerge (ec el : token) (lp : gpos) (c : gcenter) (er : token) (rp : gpos) (plan : list N)
    : GG gcenter :=
    let cl := gc_lv c in
    lc <~ gcandidate lp el ;;
    rc <~ gcandidate rp er ;;
    m0 <~ gmerger_init ec plan lc ;;
    m1 <~ gleft_subs (gvisit cl ec el) cl lp m0 ;;
    m2 <~ gcenter_subs (gvisit cl ec ec) c m1 ;;
    m3 <~ gright_subs (gvisit cl ec er) cl rp (set_candidate m2 rc) ;;
    gfinish cl m3.

  (** fill: 1721-1734, 1745-1754. *)
  Definition gfill (cl : nat) (s : list N) (p : gpos) : GG (list N) :=
    q <~ gview p ;; k <~ glift (count B BL cl q) ;; gret (s ++ [k]).

  (** concat_rebalance_mut: 2268-2280. *)
  Definition grebalance (ec el : token) (lp : gpos) (c : gcenter) (er : token) (rp : gpos) : GG gcenter :=
    let cl := gc_lv c in
    s1 <~ gleft_subs (gfill cl) cl lp [] ;;
    s2 <~ gcenter_subs (gfill cl) c s1 ;;
    counts <~ gright_subs (gfill cl) cl rp s2 ;;
    if 2 * width + 1 <? lenN counts then gub
    else plan <~ glift (shuffle B BL cl counts) ;; gmerge ec el lp c er rp plan.

  (** concat_leafs_mut: 2282-2311. *)
  Definition gconcat_leafs (lp tp rp : gpos) : GG gcenter :=
    la <~ glift (gaddr lp) ;; l <~ gview lp ;; lc <~ glift (count B BL O l) ;;
    ra <~ glift (gaddr rp) ;; r <~ gview rp ;; rc <~ glift (count B BL O r) ;;
    t <~ gview tp ;; tc <~ glift (count B BL O t) ;;
    if 0 <? tc then
      ta <~ glift (gaddr tp) ;; gret (mkGC O [la; ta; ra] [lc; lc + tc; lc + tc + rc])
    else gret (mkGC O [la; ra] [lc; lc + rc]).

  (** concat_inners_mut and its visitors: 2313-2420. *)
  Fixpoint gconcat_inners (fuel : nat) (ll rl : nat) (ec el : token) (lp tp : gpos) (er : token) (rp : gpos)
    : GG gcenter :=
    match fuel, ll, rl with
    | S f, S l, S r =>
        if Nat.ltb r l then
          q <~ glast_sub l lp ;;
          c <~ match l with O => gub | S _ => gconcat_inners f l rl ec el q tp er rp end ;;
          grebalance ec el lp c er GNone
        else if Nat.ltb l r then
          q <~ gfirst_sub r rp ;;
          c <~ match r with
               | O => gconcat_leafs lp tp q
               | S _ => gconcat_inners f ll r ec el lp tp er q
               end ;;
          grebalance ec el GNone c er rp
        else
          ql <~ glast_sub l lp ;;
          qr <~ gfirst_sub r rp ;;
          c <~ match l with
               | O => gconcat_leafs ql tp qr
               | S _ => gconcat_inners f l r ec el ql tp er qr
               end ;;
          grebalance ec el lp c er rp
    | _, _, _ => gub
    end.

  (** realize_e: 1543-1556.  Level and root. *)
  Definition grealize (ec : token) (c : gcenter) : GG (nat * nat) :=
    if 1 <? lenN (gc_nodes c) then
      n <~ gmake_inner_r ec ;;
      r <~ grelaxed n ;;
      _ <~ (' (_, sz) <~ gtable r ;;
            sz' <~ glift (write sz 0 (map Some (gc_sizes c))) ;;
            gput_table r (Some (lenN (gc_nodes c))) sz') ;;
      _ <~ (' (r, cs) <~ ginner n ;;
            cs' <~ glift (write cs 0 (map Some (gc_nodes c))) ;; gput_inner n r cs') ;;
      gret (S (gc_lv c), n)
    else
      match gc_lv c, gc_nodes c with
      | S l, n :: _ => _ <~ grelaxed n ;; gret (S l, n)
      | _, _ => gub
      end.

  (** concat_trees_mut: 2452-2504. *)
  Definition gconcat_trees (ec el : token) (lp : gpos) (ll : nat) (tp : gpos) (er : token)
    (rroot : nat) (rl : nat) (rsize : N) : GG (nat * nat) :=
    rp <~ gmaybe rl rroot rsize ;;
    c <~ gconcat_inners (ll + rl) ll rl ec el lp tp er rp ;;
    grealize ec c.

  (** *** rrbtree *)
  (** tail_offset: rrbtree.hpp:165-173. *)
  Definition gtail_offset (t : gtree) : GG N :=
    ' (r, _) <~ ginner (gt_root t) ;;
    match r with
    | Some r => n <~ gcount r ;; if n =? 0 then gub else gsize r (n - 1)
    | None => gret (if gt_size t =? 0 then 0 else N.ldiff (gt_size t - 1) (lmask BL))
    end.
  (** The branches of concat_mut_l (836-908), concat_mut_r (978-1050), concat_mut_lr_l (1114-1186)
      and concat_mut_lr_r (1255-1329) for a right operand that is more than a tail.  They differ
      in the tokens: the one new nodes get, and those of the nodes of the left and of the right
      operand that may be overwritten. *)
  Definition gconcat_mut (ec el er : token) (x y : gtree) : GG gtree :=
    roff <~ gtail_offset y ;;
    off <~ gtail_offset x ;;
    if roff =? 0 then gub
    else
      let ts := gt_size x - off in
      ' (h, r) <~
        (if off =? 0 then
           gconcat_trees ec el (GSingle (gt_tail x) ts) 1 GNone er (gt_root y) (S (gt_lv y)) roff
         else
           lp <~ gmaybe (S (gt_lv x)) (gt_root x) off ;;
           _ <~ glift (mk_reg nil_node ts) ;;
           gconcat_trees ec el lp (S (gt_lv x)) (GReg (gt_tail x) ts) er (gt_root y) (S (gt_lv y)) roff) ;;
      match h with
      | S l => gret (mkGT (gt_size x + gt_size y) l r (gt_tail y))
      | O => gub
      end.
End GcConcat.
