(** vector and flex_vector on counted memory: the handles (rbtree, rrbtree) and their
    operations, persistent and in place, other than concatenation.
    Source: /repo/immer/detail/rbts/{rbtree,rrbtree}.hpp; line numbers are those of rrbtree.hpp
    unless they say rbtree.

    The two classes differ in how they find where the tail starts and in the position they make
    of the root; [rx] is true for rrbtree and false for rbtree.  Simplifications: as in VecHeap;
    a value passed to push_back is made by the caller, and moving it does not throw. *)
From Coq Require Import List NArith Arith Bool.
From Verif Require Import Common NList Rrb RcHeap RcExn VecHeap.
Import ListNotations.
Local Open Scope N_scope.

(** The fields size, shift, root and tail; the shift is that of a root of level [S ht_lv]. *)
Record htree : Type := mkHT { ht_size : N; ht_lv : nat; ht_root : nat; ht_tail : nat }.

(** A throwing point of an operation that catches the exception itself. *)
Definition xfate {B} : X B bool :=
  fun f h => match f with
             | b :: f' => Ok (Ret b, f', h)
             | [] => Ok (Ret false, [], h)
             end.

Section VecTree.
  Variables B BL : N.
  Context {T : Type}.
  (** What a moved-from element is, whether T moves without throwing, the class, the static
      empty root and tail. *)
  Variable gone : T -> T.
  Variable nm : bool.
  Variable rx : bool.
  Variables er et : nat.

  Notation body := (vbody T).
  Notation MM := (M body).
  Notation XX := (X body).
  Notation sh := (sh B BL).
  Notation width := (width B).
  Notation lwidth := (lwidth BL).
  Notation lmask := (lmask BL).
  Notation mask := (mask B).

  (** Default constructor 101-108 over empty_root, empty_tail 49-67 (rbtree 87-94, 35-53). *)
  Definition hempty : MM htree := _ <~ inc er ;; _ <~ inc et ;; mret (mkHT 0 0 er et).
  (** Copy constructor 119-123 over inc 154-158 (rbtree 105-109, 140-144). *)
  Definition hcopy (x : htree) : MM htree :=
    _ <~ inc (ht_root x) ;; _ <~ inc (ht_tail x) ;; mret x.

  (** tail_offset 165-173; rbtree 151. *)
  Definition htail_offset (x : htree) : MM N :=
    let off := if ht_size x =? 0 then 0 else N.ldiff (ht_size x - 1) lmask in
    if rx then
      ' (r, _) <~ load_inner (ht_root x) ;;
      match r with
      | Some r => sz <~ load_table r ;; mlift (last_of sz)
      | None => mret off
      end
    else mret off.
  (** The position of the root: visit_maybe_relaxed_sub, or make_regular_sub_pos in rbtree. *)
  Definition hroot_pos (x : htree) (off : N) : MM hpos :=
    if rx then hmaybe B BL (S (ht_lv x)) (ht_root x) off
    else _ <~ mlift (mk_sub B BL (S (ht_lv x)) (Leaf [] : node T) off) ;; mret (HSub (ht_root x) off).
  (** Destructor 152 over dec 160, traverse 175-190 (rbtree 138, 146, 153-166).  The position
      empty_leaf_pos differs from a leaf_sub_pos without elements in name only. *)
  Definition hdestroy (x : htree) : MM unit :=
    off <~ htail_offset x ;;
    _ <~ (if 0 <? off then q <~ hroot_pos x off ;; hdec B BL (S (ht_lv x)) q
          else dec_empty (ht_root x)) ;;
    dec_leaf B BL (ht_tail x) (ht_size x - off).
  (** [*this = {}]: a swap with a temporary, which is destroyed. *)
  Definition hclear (x : htree) : MM htree := y <~ hempty ;; _ <~ hdestroy x ;; mret y.

  (** *** push_tail 333-382 and, [mutating], push_tail_mut 384-435; in rbtree inside push_back
      317-359 and push_back_mut 271-315.  The result is the level and the new root. *)
  (** A new root above the old one. *)
  Definition hgrow (mutating relaxed : bool) (x : htree) (off : N) (tl : nat) (ts : N)
    : XX (nat * nat) :=
    n <- (if relaxed then make_inner_r (S (S (ht_lv x))) else make_inner) ;;;
    _ <- xtry (c <- hmake_path (S (ht_lv x)) tl ;;;
               xm (_ <~ mwhen (negb mutating) (inc (ht_root x)) ;;
                   if relaxed then
                     if (0 <? off) && (0 <? ts) then
                       ' (r, _) <~ load_inner n ;;
                       match r with
                       | Some r => _ <~ put_table r [off; off + ts] ;;
                                   put_inner n (Some r) [ht_root x; c]
                       | None => mub
                       end
                     else mub
                   else put_inner n None [ht_root x; c]))
              (if relaxed then delete_inner_r n else delete_inner n) ;;;
    xret (S (ht_lv x), n).
  Definition hpush_tail (mutating : bool) (x : htree) (off : N) (tl : nat) (ts : N)
    : XX (nat * nat) :=
    ' (r, _) <- (if rx then xm (load_inner (ht_root x)) else xret (None, [])) ;;;
    match r with
    | Some r =>
        o <- hpush B BL mutating (S (ht_lv x)) (HRel (ht_root x) r) tl ts ;;;
        match o with
        | Some n => xret (ht_lv x, n)
        | None => hgrow mutating true x off tl ts
        end
    | None =>
        if off =? N.shiftl width (sh (ht_lv x)) then hgrow mutating false x off tl ts
        else if 0 <? off then
          _ <- xm (mlift (mk_sub B BL (S (ht_lv x)) (Leaf [] : node T) off)) ;;;
          o <- hpush B BL mutating (S (ht_lv x)) (HSub (ht_root x) off) tl 0 ;;;
          match o with Some n => xret (ht_lv x, n) | None => xm mub end
        else
          n <- hmake_path (S (ht_lv x)) tl ;;;
          _ <- xm (mwhen mutating (dec_empty (ht_root x))) ;;;
          xret (ht_lv x, n)
    end.

  (** push_back 470-490; rbtree 317-359. *)
  Definition hpush_back (x : htree) (v : T) : XX htree :=
    off <- xm (htail_offset x) ;;;
    let ts := ht_size x - off in
    if ts <? lwidth then
      tl <- hcopy_emplace (ht_tail x) ts v ;;;
      _ <- xm (inc (ht_root x)) ;;;
      xret (mkHT (ht_size x + 1) (ht_lv x) (ht_root x) tl)
    else
      nt <- make_leaf v ;;;
      ' (l, r) <- xtry (lr <- hpush_tail false x off (ht_tail x) ts ;;;
                        _ <- xm (inc (ht_tail x)) ;;;
                        xret lr)
                       (delete_leaf nt 1) ;;;
      xret (mkHT (ht_size x + 1) l r nt).
  (** ensure_mutable_tail 437-444; rbtree 262-269. *)
  Definition hensure_tail (x : htree) (n : N) : XX nat :=
    u <- xm (unique (ht_tail x)) ;;;
    if u then xret (ht_tail x)
    else
      nt <- hcopy_leaf (ht_tail x) n ;;;
      _ <- xm (dec_leaf B BL (ht_tail x) n) ;;;
      xret nt.
  (** push_back_mut 446-468; rbtree 271-315. *)
  Definition hpush_back_mut (x : htree) (v : T) : XX htree :=
    off <- xm (htail_offset x) ;;;
    let ts := ht_size x - off in
    if ts <? lwidth then
      tl <- hensure_tail x ts ;;;
      _ <- xm (xs <~ load_leaf tl ;; if lenN xs =? ts then put_leaf tl (xs ++ [v]) else mub) ;;;
      xret (mkHT (ht_size x + 1) (ht_lv x) (ht_root x) tl)
    else
      nt <- make_leaf v ;;;
      ' (l, r) <- xtry (hpush_tail true x off (ht_tail x) ts) (delete_leaf nt 1) ;;;
      xret (mkHT (ht_size x + 1) l r nt).

  (** *** get 527-530 over descend 249-256 (rbtree 378-381, 216-222): see [get_regular],
      [get_relaxed] and [descend] in Rrb. *)
  Fixpoint hget_regular (v : nat) (a : nat) (idx : N) : MM T :=
    match v with
    | O => xs <~ load_leaf a ;; mlift (rnthN xs (N.land idx lmask))
    | S l =>
        ' (_, cs) <~ load_inner a ;;
        c <~ mlift (rnthN cs (N.land (N.shiftr idx (sh l)) mask)) ;;
        hget_regular l c idx
    end.
  Fixpoint hget_relaxed (v : nat) (a : nat) (idx : N) : MM T :=
    match v with
    | O => mub
    | S l =>
        ' (r, cs) <~ load_inner a ;;
        match r with
        | None => mub
        | Some r =>
            sz <~ load_table r ;;
            let o := match l with
                     | O => N.land (N.shiftr idx BL) mask
                     | S _ => N.shiftr idx (sh l)
                     end in
            off <~ mlift (scan (dropN o sz) idx o) ;;
            c <~ mlift (rnthN cs off) ;;
            left <~ mlift (if off =? 0 then Ok 0 else rnthN sz (off - 1)) ;;
            match l with
            | O => hget_regular O c (idx - left)
            | S _ =>
                ' (r', _) <~ load_inner c ;;
                match r' with
                | Some _ => hget_relaxed l c (idx - left)
                | None => hget_regular l c (idx - left)
                end
            end
        end
    end.
  Definition hget (x : htree) (idx : N) : MM T :=
    off <~ htail_offset x ;;
    if off <=? idx then hget_regular O (ht_tail x) (if rx then idx - off else idx)
    else if Nat.ltb (ht_lv x) 6 then
      ' (r, _) <~ (if rx then load_inner (ht_root x) else mret (None, [])) ;;
      match r with
      | Some _ => hget_relaxed (S (ht_lv x)) (ht_root x) idx
      | None => hget_regular (S (ht_lv x)) (ht_root x) idx
      end
    else mub.

  (** *** update 547-562; rbtree 401-416.  assoc is update with a constant function. *)
  Definition hupdate_tree (x : htree) (idx : N) (fn : T -> T) : XX htree :=
    off <- xm (htail_offset x) ;;;
    if off <=? idx then
      _ <- xm (mlift (mk_sub B BL O (Leaf [] : node T) (ht_size x - off))) ;;;
      tl <- hupdate B BL O (HSub (ht_tail x) (ht_size x - off)) (idx - off) fn ;;;
      _ <- xm (inc (ht_root x)) ;;;
      xret (mkHT (ht_size x) (ht_lv x) (ht_root x) tl)
    else
      q <- xm (hroot_pos x off) ;;;
      r <- hupdate B BL (S (ht_lv x)) q idx fn ;;;
      _ <- xm (inc (ht_tail x)) ;;;
      xret (mkHT (ht_size x) (ht_lv x) r (ht_tail x)).
  (** get_mut 508-525; rbtree 367-377. *)
  Definition hget_mut_tree (x : htree) (idx : N) : XX (htree * (nat * N)) :=
    off <- xm (htail_offset x) ;;;
    if off <=? idx then
      tl <- hensure_tail x (ht_size x - off) ;;;
      xret (mkHT (ht_size x) (ht_lv x) (ht_root x) tl,
            (tl, N.land (if rx then idx - off else idx) lmask))
    else
      q <- xm (hroot_pos x off) ;;;
      ' (r, e) <- hget_mut B BL (S (ht_lv x)) q idx ;;;
      xret (mkHT (ht_size x) (ht_lv x) r (ht_tail x), e).
  (** update_mut 541-545; rbtree 394-398.  The function takes the element by move; when it
      throws the element stays as that left it.  The boolean says whether it threw. *)
  Definition hupdate_mut (x : htree) (idx : N) (fn : T -> T) : XX (htree * bool) :=
    ' (y, (lf, i)) <- hget_mut_tree x idx ;;;
    threw <- xfate ;;;
    _ <- xm (xs <~ load_leaf lf ;;
             e <~ mlift (rnthN xs i) ;;
             put_leaf lf (updN i ((if threw then gone else fn) e) xs)) ;;;
    xret (y, threw).

  (** *** take 615-641, take_mut 574-613; rbtree 428-454, 456-497. *)
  (** The root and level that a cut leaves. *)
  Definition hcut_root (o : option (nat * nat)) : MM (nat * nat) :=
    match o with
    | Some (S l, r) => mret (l, r)
    | Some (O, _) => mub
    | None => _ <~ inc er ;; mret (O, er)
    end.
  Definition htake (x : htree) (n : N) : XX htree :=
    off <- xm (htail_offset x) ;;;
    if n =? 0 then xm hempty
    else if ht_size x <=? n then xm (hcopy x)
    else if off <? n then
      tl <- hcopy_leaf (ht_tail x) (n - off) ;;;
      _ <- xm (inc (ht_root x)) ;;;
      xret (mkHT n (ht_lv x) (ht_root x) tl)
    else
      q <- xm (hroot_pos x off) ;;;
      ' (o, _, tl) <- hslice_right B BL true false (S (ht_lv x)) q (n - 1) ;;;
      ' (l, r) <- xm (hcut_root o) ;;;
      xret (mkHT n l r tl).
  Definition htake_mut (x : htree) (n : N) : XX htree :=
    off <- xm (htail_offset x) ;;;
    if n =? 0 then xm (hclear x)
    else if ht_size x <=? n then xret x
    else if off <? n then
      let ts := ht_size x - off in
      u <- xm (unique (ht_tail x)) ;;;
      tl <- (if u then _ <- xm (destroy_right (ht_tail x) (n - off) ts) ;;; xret (ht_tail x)
             else nt <- hcopy_leaf (ht_tail x) (n - off) ;;;
                  _ <- xm (dec_leaf B BL (ht_tail x) ts) ;;;
                  xret nt) ;;;
      xret (mkHT n (ht_lv x) (ht_root x) tl)
    else
      q <- xm (hroot_pos x off) ;;;
      ' (o, _, tl) <- hslice_right B BL true true (S (ht_lv x)) q (n - 1) ;;;
      ' (l, r) <- xm (hcut_root o) ;;;
      _ <- xm (dec_leaf B BL (ht_tail x) (ht_size x - off)) ;;;
      xret (mkHT n l r tl).

  (** *** drop 679-701, drop_mut 643-677; rrbtree only. *)
  Definition hdrop (x : htree) (n : N) : XX htree :=
    if n =? 0 then xm (hcopy x)
    else if ht_size x <=? n then xm hempty
    else
      off <- xm (htail_offset x) ;;;
      if n =? off then
        xm (_ <~ inc er ;; _ <~ inc (ht_tail x) ;; mret (mkHT (ht_size x - n) O er (ht_tail x)))
      else if off <? n then
        tl <- hcopy_range (ht_tail x) (n - off) (ht_size x - off) ;;;
        _ <- xm (inc er) ;;;
        xret (mkHT (ht_size x - n) O er tl)
      else
        q <- xm (hmaybe B BL (S (ht_lv x)) (ht_root x) off) ;;;
        ' (w, r) <- hslice_left B BL nm true false (S (ht_lv x)) q n ;;;
        _ <- xm (inc (ht_tail x)) ;;;
        match w with
        | S l => xret (mkHT (ht_size x - n) l r (ht_tail x))
        | O => xm mub
        end.
  Definition hdrop_mut (x : htree) (n : N) : XX htree :=
    off <- xm (htail_offset x) ;;;
    if n =? 0 then xret x
    else if ht_size x <=? n then xm (hclear x)
    else if n =? off then
      xm (_ <~ dec_inner B BL (S (ht_lv x)) (ht_root x) off ;; _ <~ inc er ;;
          mret (mkHT (ht_size x - n) O er (ht_tail x)))
    else if off <? n then
      _ <- xm (mlift (mk_sub B BL O (Leaf [] : node T) (ht_size x - off))) ;;;
      ' (_, tl) <- hslice_left B BL nm true true O (HSub (ht_tail x) (ht_size x - off)) (n - off) ;;;
      if 0 <? off then
        xm (_ <~ dec_inner B BL (S (ht_lv x)) (ht_root x) off ;; _ <~ inc er ;;
            mret (mkHT (ht_size x - n) O er tl))
      else xret (mkHT (ht_size x - n) (ht_lv x) (ht_root x) tl)
    else
      q <- xm (hmaybe B BL (S (ht_lv x)) (ht_root x) off) ;;;
      ' (w, r) <- hslice_left B BL nm true true (S (ht_lv x)) q n ;;;
      match w with
      | S l => xret (mkHT (ht_size x - n) l r (ht_tail x))
      | O => xm mub
      end.
End VecTree.
