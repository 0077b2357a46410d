(** Concatenation of the trees of flex_vector in counted memory, with exceptions.
    Source: /repo/immer/detail/rbts/operations.hpp:1461-2004.

    The functions are those of Rrb on addresses.  A center position owns one reference to each
    of its nodes.  The nodes concat_merger fills are blocks of the memory while they are filled;
    the other fields of the object are a record.  A throw in the middle of a merge keeps the
    fields as they are, because abort() reads them: see [MS].

    Simplifications: as in VecHeap; the children the three positions visit are read once for
    fill and merge, nothing between the two writes them; the capacity a parent node was
    allocated with is kept for the last parent only. *)
From Coq Require Import List NArith Arith Bool.
From Verif Require Import Common NList Rrb RcHeap RcExn VecHeap.
Import ListNotations.
Local Open Scope N_scope.

(** A child about to be visited: of a position, or of a center position above the leaves
    (make_relaxed_pos(n, shift, n->relaxed()), operations.hpp:1517). *)
Inductive ckid : Type := CKid (k : hkid) | CRel (a : nat).

(** concat_center_pos: 1461-1504; see [center] in Rrb. *)
Record hcenter : Type := mkHC { hc_lv : nat; hc_nodes : list nat; hc_sizes : list N }.

(** The fields of concat_merger: 1568-1581.  [hm_nodes] and [hm_sizes] are result_.nodes_ and
    result_.sizes_, last first; [hm_cap] is the capacity of the last node; [hm_tosz] are the
    sizes written to the table of to_, whose count is set when the node is complete (1675) or
    given up (1696); to_size_ is the last of them. *)
Record hmerger : Type := mkHM
  { hm_curr : list N; hm_n : N; hm_nodes : list nat; hm_cap : N; hm_sizes : list N;
    hm_to : option nat; hm_off : N; hm_tosz : list N }.

Section VecConcat.
  Variables B BL : N.
  Context {T : Type}.
  Notation MM := (M (vbody T)).
  Notation XX := (X (vbody T)).
  Notation node := (node T).
  Notation pos := (pos T).
  Notation sh := (sh B BL).
  Notation width := (width B).

  (** *** Children of positions *)
  (** each_left_sub, each_right_sub, last_sub, first_sub: position.hpp:869-907, 948-984,
      1288-1298, 1351-1366, 1607-1641, 1740-1771; see Rrb. *)
  Definition heach_left_sub (l : nat) (p : pos) (cs : list nat) : res (list hkid) :=
    match p with
    | PSub _ _ | PRel _ _ => c <- count B BL (S l) p ;; heach_left B BL l p cs (c - 1)
    | PFull _ => hd <- rsliceN 0 (width - 1) cs ;; Ok (map KFull hd)
    | _ => UB
    end.
  Definition heach_right_sub (l : nat) (p : pos) (cs : list nat) : res (list hkid) :=
    match p with
    | PSub _ s =>
        c <- count B BL (S l) p ;;
        if 1 <? c then
          o <- shl32 (c - 1) (sh l) ;;
          hd <- rsliceN 1 (c - 1) cs ;;
          x <- rnthN cs (c - 1) ;;
          Ok (map KFull hd ++ [KSub x (s - o)])
        else Ok []
    | PFull _ => hd <- rsliceN 1 width cs ;; Ok (map KFull hd)
    | PRel _ _ => heach_right B BL l p cs 1
    | _ => UB
    end.
  Definition hlast_sub (l : nat) (p : pos) (cs : list nat) : res hkid :=
    match p with
    | PSub _ s =>
        c <- count B BL (S l) p ;; x <- rnthN cs (c - 1) ;;
        Ok (KSub x (s - N.shiftl (c - 1) (sh l)))
    | PRel _ sz =>
        x <- rnthN cs (lenN sz - 1) ;; s <- size_at B BL (S l) p (lenN sz - 1) ;; Ok (KMaybe x s)
    | _ => UB
    end.
  Definition hfirst_sub (l : nat) (p : pos) (cs : list nat) : res hkid :=
    match p with
    | PSub _ s => x <- rnthN cs 0 ;; Ok (if N.shiftl 1 (sh l) <=? s then KFull x else KSub x s)
    | PFull _ => x <- rnthN cs 0 ;; Ok (KFull x)
    | PRel _ sz => x <- rnthN cs 0 ;; s <- rnthN sz 0 ;; Ok (KMaybe x s)
    | _ => UB
    end.
  (** The same from memory; the singleton position (position.hpp:714-760) has its leaf as its
      only child and the null position (695-711) has none. *)
  Definition from_pos {A} (f : pos -> list nat -> res A) (hp : hpos) : MM A :=
    a <~ mlift (haddr hp) ;;
    p <~ view hp ;;
    ' (_, cs) <~ load_inner a ;;
    mlift (f p cs).
  Definition lefts (l : nat) (hp : hpos) : MM (list hkid) :=
    match hp with
    | HSingle _ _ | HNone => mret []
    | _ => from_pos (heach_left_sub l) hp
    end.
  Definition rights (l : nat) (hp : hpos) : MM (list hkid) :=
    match hp with HNone => mret [] | _ => from_pos (heach_right_sub l) hp end.
  Definition last_kid (l : nat) (hp : hpos) : MM hkid :=
    match hp with HSingle a c => mret (KSub a c) | _ => from_pos (hlast_sub l) hp end.
  Definition first_kid (l : nat) (hp : hpos) : MM hkid := from_pos (hfirst_sub l) hp.

  Definition copen (v : nat) (c : ckid) : MM hpos :=
    match c with
    | CKid k => open B BL v k
    | CRel a =>
        ' (r, _) <~ load_inner a ;; match r with Some r => mret (HRel a r) | None => mub end
    end.

  (** *** concat_center_pos *)
  Fixpoint leaf_subs (ns : list nat) (sz : list N) (s : N) : list ckid :=
    match ns, sz with
    | n :: ns', t :: sz' => CKid (KSub n (t - s)) :: leaf_subs ns' sz' t
    | _, _ => []
    end.
  (** each_sub: 1506-1520. *)
  Definition center_subs (c : hcenter) : list ckid :=
    match hc_lv c with
    | O => leaf_subs (hc_nodes c) (hc_sizes c) 0
    | S _ => map CRel (hc_nodes c)
    end.
  (** each_sub(dec_visitor{}). *)
  Definition dec_subs (v : nat) (ks : list ckid) : MM unit :=
    each_of (fun k => q <~ copen v k ;; hdec B BL v q) ks.
  Definition center_dec (c : hcenter) : MM unit := dec_subs (hc_lv c) (center_subs c).
  (** realize: 1522-1541.  Level and root. *)
  Definition hrealize (c : hcenter) : XX (nat * nat) :=
    if 1 <? lenN (hc_nodes c) then
      n <- xtry (make_inner_r (S (hc_lv c))) (center_dec c) ;;;
      _ <- xm (' (r, _) <~ load_inner n ;;
               match r with
               | Some r => _ <~ put_inner n (Some r) (hc_nodes c) ;; put_table r (hc_sizes c)
               | None => mub
               end) ;;;
      xret (S (hc_lv c), n)
    else
      match hc_lv c, hc_nodes c with
      | S l, n :: _ =>
          _ <- xm (' (r, _) <~ load_inner n ;; match r with Some _ => mret tt | None => mub end) ;;;
          xret (S l, n)
      | _, _ => xm mub
      end.

  (** *** concat_merger *)
  (** A step of a merger: it returns or throws, in either case with the fields. *)
  Definition MS (A : Type) : Type := hmerger -> XX (option A * hmerger).
  Definition sret {A} (a : A) : MS A := fun s => xret (Some a, s).
  Definition sbind {A C} (m : MS A) (k : A -> MS C) : MS C :=
    fun s => ' (o, s') <- m s ;;; match o with Some a => k a s' | None => xret (None, s') end.
  Definition xcatch {A} (m : XX A) : XX (option A) :=
    fun f h => match m f h with
               | Ok (Ret a, f', h') => Ok (Ret (Some a), f', h')
               | Ok (Exn, f', h') => Ok (Ret None, f', h')
               | UB => UB
               end.
  Definition sx {A} (m : XX A) : MS A := fun s => o <- xcatch m ;;; xret (o, s).
  Definition sm {A} (m : MM A) : MS A := fun s => a <- xm m ;;; xret (Some a, s).
  Definition sget : MS hmerger := fun s => xret (Some s, s).
  Definition sput (s : hmerger) : MS unit := fun _ => xret (Some tt, s).
  Notation "x <-- m ;; k" := (sbind m (fun x => k)) (at level 61, m at next level, right associativity).

  Definition set_to (s : hmerger) (a : option nat) (off : N) (tosz : list N) : hmerger :=
    mkHM (hm_curr s) (hm_n s) (hm_nodes s) (hm_cap s) (hm_sizes s) a off tosz.

  (** constructor: 1572-1577; the nodes merged are of level [cl]. *)
  Definition hmerger_init (cl : nat) (counts : list N) : XX hmerger :=
    n <- make_inner_r (S cl) ;;;
    xret (mkHM counts (lenN counts) [n] (N.min (lenN counts) width) [0] None 0 []).

  (** add_child: 1583-1605. *)
  Definition hadd_child (cl : nat) (p : nat) (sz : N) : MS unit :=
    s <-- sget ;;
    if sz =? 0 then sm mub
    else
      match hm_curr s, hm_nodes s, hm_sizes s with
      | _ :: curr, n :: ns, t :: ts =>
          let s1 := mkHM curr (hm_n s) (n :: ns) (hm_cap s) (t :: ts) (hm_to s) (hm_off s) (hm_tosz s) in
          _ <-- sput s1 ;;
          r <-- sm (' (r, _) <~ load_inner n ;; match r with Some r => mret r | None => mub end) ;;
          tab <-- sm (load_table r) ;;
          _ <-- (if lenN tab =? width then
                   if (lenN (n :: ns) <? 3) && (width <=? hm_n s) then
                     let n_ := hm_n s - width in
                     _ <-- sput (mkHM curr n_ (n :: ns) (hm_cap s) (t :: ts) (hm_to s) (hm_off s) (hm_tosz s)) ;;
                     par <-- sx (make_inner_r (S cl)) ;;
                     sput (mkHM curr n_ (par :: n :: ns) (N.min n_ width) (t :: t :: ts)
                                (hm_to s) (hm_off s) (hm_tosz s))
                   else sm mub
                 else sret tt) ;;
          s2 <-- sget ;;
          match hm_nodes s2, hm_sizes s2 with
          | n2 :: ns2, t2 :: ts2 =>
              _ <-- sput (mkHM (hm_curr s2) (hm_n s2) (n2 :: ns2) (hm_cap s2) (t2 + sz :: ts2)
                               (hm_to s2) (hm_off s2) (hm_tosz s2)) ;;
              sm (' (r2, _) <~ load_inner n2 ;;
                  match r2 with
                  | None => mub
                  | Some r2 =>
                      tab2 <~ load_table r2 ;;
                      let idx := lenN tab2 in
                      if idx <? hm_cap s2 then
                        prev <~ mlift (if idx =? 0 then Ok 0 else rnthN tab2 (idx - 1)) ;;
                        _ <~ put_size r2 idx (sz + prev) ;;
                        put_last n2 idx p
                      else mub
                  end)
          | _, _ => sm mub
          end
      | _, _, _ => sm mub
      end.

  (** [*curr_]. *)
  Definition hcurr : MS N :=
    s <-- sget ;; match hm_curr s with c :: _ => sret c | [] => sm mub end.
  (** [to_] is given up to the result. *)
  Definition drop_to : MS unit := s <-- sget ;; sput (set_to s None (hm_off s) []).

  (** merge_leaf: 1607-1639; the loop over the remaining source elements. *)
  Fixpoint hmerge_leaf_go (fuel : nat) (from : list T) : MS unit :=
    match fuel with
    | O => sm mub
    | S f =>
        cur <-- hcurr ;;
        s <-- sget ;;
        _ <-- match hm_to s with
              | Some _ => sret tt
              | None =>
                  to <-- sx (_ <- may_throw ;;; xm (new (VLeaf []) [])) ;;
                  sput (set_to s (Some to) 0 [])
              end ;;
        s1 <-- sget ;;
        match hm_to s1 with
        | None => sm mub
        | Some to =>
            if cur <? hm_off s1 then sm mub
            else
              let to_copy := N.min (lenN from) (cur - hm_off s1) in
              _ <-- sx may_throw ;;
              _ <-- sm (xs <~ load_leaf to ;; ys <~ mlift (rtakeN (hm_off s1) xs) ;;
                        put_leaf to (ys ++ takeN to_copy from)) ;;
              let off := hm_off s1 + to_copy in
              _ <-- sput (set_to s1 (Some to) off []) ;;
              _ <-- (if cur =? off then _ <-- hadd_child O to off ;; drop_to else sret tt) ;;
              match dropN to_copy from with [] => sret tt | from' => hmerge_leaf_go f from' end
        end
    end.
  Definition hmerge_leaf (hp : hpos) : MS unit :=
    from <-- sm (mlift (haddr hp)) ;;
    p <-- sm (view hp) ;;
    sz <-- sm (mlift (psize B BL O p)) ;;
    k <-- sm (mlift (count B BL O p)) ;;
    cur <-- hcurr ;;
    s <-- sget ;;
    if sz =? 0 then sm mub
    else
      let copy :=
        xs <-- sm (xs <~ load_leaf from ;; mlift (rtakeN k xs)) ;; hmerge_leaf_go (S (length xs)) xs in
      match hm_to s with
      | Some _ => copy
      | None => if cur =? k then _ <-- hadd_child O from sz ;; sm (inc from) else copy
      end.

  (** merge_inner: 1641-1681, on nodes of level [v]; [cs] are the children of the source. *)
  Fixpoint hmerge_inner_go (fuel : nat) (v : nat) (p : pos) (cs : list nat) (off k : N) : MS unit :=
    match fuel with
    | O => sm mub
    | S f =>
        cur <-- hcurr ;;
        s <-- sget ;;
        _ <-- match hm_to s with
              | Some _ => sret tt
              | None => to <-- sx (make_inner_r v) ;; sput (set_to s (Some to) 0 [])
              end ;;
        s1 <-- sget ;;
        match hm_to s1 with
        | None => sm mub
        | Some to =>
            if cur <? hm_off s1 then sm mub
            else
              let to_copy := N.min (k - off) (cur - hm_off s1) in
              new <-- sm (mlift (rsliceN off (off + to_copy) cs)) ;;
              r <-- sm (' (r, ks) <~ load_inner to ;;
                        match r with
                        | None => mub
                        | Some r =>
                            ks' <~ mlift (rtakeN (hm_off s1) ks) ;;
                            _ <~ put_inner to (Some r) (ks' ++ new) ;;
                            _ <~ each_of inc new ;;
                            mret r
                        end) ;;
              to_size <-- sm (mlift (if lenN (hm_tosz s1) =? 0 then Ok 0 else last_of (hm_tosz s1))) ;;
              nsz <-- sm (mlift (copy_sizes B BL v p off to_copy to_size)) ;;
              let tosz := hm_tosz s1 ++ nsz in
              let off' := hm_off s1 + to_copy in
              _ <-- sput (set_to s1 (Some to) off' tosz) ;;
              sz <-- sm (mlift (last_of tosz)) ;;
              _ <-- (if cur =? off' then
                       _ <-- sm (put_table r tosz) ;; _ <-- hadd_child v to sz ;; drop_to
                     else sret tt) ;;
              if off + to_copy =? k then sret tt else hmerge_inner_go f v p cs (off + to_copy) k
        end
    end.
  Definition hmerge_inner (v : nat) (hp : hpos) : MS unit :=
    from <-- sm (mlift (haddr hp)) ;;
    p <-- sm (view hp) ;;
    sz <-- sm (mlift (psize B BL v p)) ;;
    k <-- sm (mlift (count B BL v p)) ;;
    cur <-- hcurr ;;
    s <-- sget ;;
    if sz =? 0 then sm mub
    else
      let copy :=
        cs <-- sm (' (_, cs) <~ load_inner from ;; mret cs) ;;
        hmerge_inner_go (S (N.to_nat k)) v p cs 0 k in
      match hm_to s with
      | Some _ => copy
      | None => if cur =? k then _ <-- hadd_child v from sz ;; sm (inc from) else copy
      end.

  (** concat_merger_visitor over the children: 1704-1719, 1803-1805. *)
  Fixpoint hmerge_all (cl : nat) (ks : list ckid) : MS unit :=
    match ks with
    | [] => sret tt
    | k :: ks' =>
        q <-- sm (copen cl k) ;;
        _ <-- match cl with O => hmerge_leaf q | S _ => hmerge_inner cl q end ;;
        hmerge_all cl ks'
    end.

  (** result_ as a center position; finish: 1683-1687. *)
  Definition result_of (cl : nat) (s : hmerger) : hcenter :=
    mkHC (S cl) (rev (hm_nodes s)) (rev (hm_sizes s)).
  Definition hfinish (cl : nat) (s : hmerger) : MM hcenter :=
    match hm_to s with Some _ => mub | None => mret (result_of cl s) end.
  (** abort: 1689-1701. *)
  Definition habort (cl : nat) (s : hmerger) : MM unit :=
    _ <~ match hm_to s with
         | None => mret tt
         | Some to =>
             match cl with
             | O => delete_leaf to (hm_off s)
             | S _ =>
                 ' (r, _) <~ load_inner to ;;
                 match r with
                 | None => mub
                 | Some r =>
                     tab <~ mlift (rtakeN (hm_off s) (hm_tosz s)) ;;
                     _ <~ put_table r tab ;; dec_relaxed B BL cl to
                 end
             end
         end ;;
    center_dec (result_of cl s).

  (** IMMER_RETHROW. *)
  Definition rethrow {A} : XX A := fun f h => Ok (Exn, f, h).

  (** concat_rebalance_plan::merge: 1794-1813. *)
  Definition hmerge (c : hcenter) (ks : list ckid) (plan : list N) : XX hcenter :=
    let cl := hc_lv c in
    s0 <- hmerger_init cl plan ;;;
    ' (o, s) <- hmerge_all cl ks s0 ;;;
    match o with
    | Some _ => xm (_ <~ center_dec c ;; hfinish cl s)
    | None => _ <- xm (habort cl s) ;;; rethrow
    end.

  (** fill (1721-1734, 1745-1754): the number of children of every node. *)
  Fixpoint hcounts (v : nat) (ks : list ckid) : MM (list N) :=
    match ks with
    | [] => mret []
    | k :: ks' =>
        q <~ copen v k ;; p <~ view q ;; n <~ mlift (count B BL v p) ;;
        ns <~ hcounts v ks' ;; mret (n :: ns)
    end.

  (** concat_rebalance: 1816-1829.  An absent side is [HNone]. *)
  Definition hrebalance (lp : hpos) (c : hcenter) (rp : hpos) : XX hcenter :=
    let cl := hc_lv c in
    ls <- xm (lefts cl lp) ;;;
    rs <- xm (rights cl rp) ;;;
    let ks := map CKid ls ++ center_subs c ++ map CKid rs in
    counts <- xm (hcounts cl ks) ;;;
    if 2 * width + 1 <? lenN counts then xm mub
    else
      plan <- xm (mlift (shuffle B BL cl counts)) ;;;
      xtry (hmerge c ks plan) (center_dec c).

  (** concat_leafs: 1831-1856. *)
  Definition hconcat_leafs (lp tp rp : hpos) : MM hcenter :=
    la <~ mlift (haddr lp) ;; l <~ view lp ;; lc <~ mlift (count B BL O l) ;;
    ra <~ mlift (haddr rp) ;; r <~ view rp ;; rc <~ mlift (count B BL O r) ;;
    t <~ view tp ;; tc <~ mlift (count B BL O t) ;;
    if 0 <? tc then
      ta <~ mlift (haddr tp) ;;
      _ <~ inc la ;; _ <~ inc ta ;; _ <~ inc ra ;;
      mret (mkHC O [la; ta; ra] [lc; lc + tc; lc + tc + rc])
    else
      _ <~ inc la ;; _ <~ inc ra ;;
      mret (mkHC O [la; ra] [lc; lc + rc]).

  (** concat_inners and its visitors: 1865-1942. *)
  Fixpoint hconcat_inners (fuel : nat) (ll rl : nat) (lp tp rp : hpos) : XX hcenter :=
    match fuel, ll, rl with
    | S f, S l, S r =>
        if Nat.ltb r l then
          k <- xm (last_kid l lp) ;;;
          q <- xm (open B BL l k) ;;;
          c <- match l with O => xm mub | S _ => hconcat_inners f l rl q tp rp end ;;;
          hrebalance lp c HNone
        else if Nat.ltb l r then
          k <- xm (first_kid r rp) ;;;
          q <- xm (open B BL r k) ;;;
          c <- match r with O => xm (hconcat_leafs lp tp q) | S _ => hconcat_inners f ll r lp tp q end ;;;
          hrebalance HNone c rp
        else
          kl <- xm (last_kid l lp) ;;;
          ql <- xm (open B BL l kl) ;;;
          kr <- xm (first_kid r rp) ;;;
          qr <- xm (open B BL r kr) ;;;
          c <- match l with
               | O => xm (hconcat_leafs ql tp qr)
               | S _ => hconcat_inners f l r ql tp qr
               end ;;;
          hrebalance lp c rp
    | _, _, _ => xm mub
    end.

  (** concat_trees: 1972-2004. *)
  Definition hconcat_trees (lp : hpos) (ll : nat) (tp : hpos) (rroot : nat) (rl : nat) (rsize : N)
    : XX (nat * nat) :=
    rp <- xm (hmaybe B BL rl rroot rsize) ;;;
    c <- hconcat_inners (ll + rl) ll rl lp tp rp ;;;
    hrealize c.
End VecConcat.
