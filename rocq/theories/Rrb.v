(** Model of the radix-balanced trees behind vector and flex_vector.
    Source: /repo/immer/detail/rbts/{bits,node,position,operations,rbtree,rrbtree}.hpp.

    Conventions of this file:
    - a node is its contents; a child buffer, size table or leaf buffer is a list, and
      reading outside of it is [UB];
    - the level of a node is 0 for a leaf and [S l] for an inner node whose children are
      at level [l]; the [shift] of the code for such a node is [sh l] = BL + l*B
      (bits.hpp:18-30), and the test [shift == BL] is [l = 0];
    - sizes are unbounded [N] (64-bit in the code), except where the code computes
      in 32 bits, which is modelled with [shl32];
    - an [assert] of the code that fails is [UB] here;
    - reference counts, exceptions and prefetching are not modelled in this file. *)
From Coq Require Import List NArith Arith Bool.
From Verif Require Import Common NList.
Import ListNotations.
Local Open Scope N_scope.

(** node.hpp:60-120: a leaf holds values; an inner node holds children and, when it is
    relaxed, a table of running sizes (relaxed_t: count and sizes).  Here the count is
    the length of the table. *)
Inductive node (T : Type) : Type :=
| Leaf (xs : list T)
| Inner (r : option (list N)) (cs : list (node T)).
Arguments Leaf {T} xs.
Arguments Inner {T} r cs.

(** Positions (position.hpp): views of a node used by the visitors.
    - [PFull n]: full_leaf_pos (187-215) at level 0, full_pos (1140-1408) above;
    - [PReg n s]: leaf_pos (92-122) at level 0, regular_pos (217-337) above;
    - [PSub n s]: leaf_sub_pos (124-154) at level 0, regular_sub_pos (765-1042) above;
    - [PRel n sz]: relaxed_pos (1410-1808), [sz] being its size table;
    - [PSingle n c]: singleton_regular_sub_pos (713-763);
    - [PNone]: empty_leaf_pos (67-90), used as an absent tail. *)
Inductive pos (T : Type) : Type :=
| PFull (n : node T)
| PReg (n : node T) (s : N)
| PSub (n : node T) (s : N)
| PRel (n : node T) (sz : list N)
| PSingle (n : node T) (c : N)
| PNone.
Arguments PFull {T} n.
Arguments PReg {T} n s.
Arguments PSub {T} n s.
Arguments PRel {T} n sz.
Arguments PSingle {T} n c.
Arguments PNone {T}.

(** The rbtree and rrbtree objects (rbtree.hpp:33-36, rrbtree.hpp:38-41).  [lv] stands
    for [shift = sh lv]; the root is a node of level [S lv]. *)
Record tree (T : Type) : Type := mkTree
  { size : N; lv : nat; root : node T; tail : node T }.
Arguments mkTree {T} _ _ _ _.
Arguments size {T} _.
Arguments lv {T} _.
Arguments root {T} _.
Arguments tail {T} _.

Section Rrb.
Context {T : Type}.
Variables B BL : N.

(** The [shift] of an inner node whose children are at level [l]. *)
Definition sh (l : nat) : N := BL + N.of_nat l * B.

(** [branches<B>], [branches<BL>], [mask<B>], [mask<BL>]: bits.hpp:23-27. *)
Definition width : N := 2 ^ B.
Definition lwidth : N := 2 ^ BL.
Definition mask : N := width - 1.
Definition lmask : N := lwidth - 1.

(** [count_t x << shift] in 32-bit arithmetic (position.hpp:657, 873). *)
Definition shl32 (x s : N) : res N :=
  if s <? 32 then Ok (N.shiftl x s mod 2 ^ 32) else UB.

(** node->inner(), node->leaf(): node.hpp:150-187; the wrong kind of node is UB. *)
Definition inner_of (n : node T) : res (list (node T)) :=
  match n with Inner _ cs => Ok cs | Leaf _ => UB end.
Definition leaf_of (n : node T) : res (list T) :=
  match n with Leaf xs => Ok xs | Inner _ _ => UB end.
Definition last_of {A} (l : list A) : res A := rnthN l (lenN l - 1).

(** make_leaf_pos 116-122 and make_regular_pos 686-693. *)
Definition mk_reg (n : node T) (s : N) : res (pos T) :=
  if s =? 0 then UB else Ok (PReg n s).
(** make_leaf_sub_pos 148-154 and make_regular_sub_pos 1033-1042. *)
Definition mk_sub (v : nat) (n : node T) (s : N) : res (pos T) :=
  match v with
  | O => if s <=? lwidth then Ok (PSub n s) else UB
  | S l => if (0 <? s) && (s <=? N.shiftl width (sh l)) then Ok (PSub n s) else UB
  end.
(** visit_maybe_relaxed_sub 1827-1841. *)
Definition maybe_relaxed (v : nat) (n : node T) (s : N) : res (pos T) :=
  match n with
  | Inner (Some sz) _ =>
      t <- last_of sz ;; if t =? s then Ok (PRel n sz) else UB
  | Inner None _ => mk_sub v n s
  | Leaf _ => UB
  end.
(** The recurring "is_leaf ? make_leaf_sub_pos : visit_maybe_relaxed_sub". *)
Definition child_pos (v : nat) (n : node T) (s : N) : res (pos T) :=
  match v with O => mk_sub O n s | S _ => maybe_relaxed v n s end.

Definition pnode (p : pos T) : res (node T) :=
  match p with
  | PFull n | PReg n _ | PSub n _ | PRel n _ => Ok n
  | PSingle _ _ | PNone => UB
  end.
Definition pinner (p : pos T) : res (list (node T)) :=
  n <- pnode p ;; inner_of n.

(** [while (sizes[offset] <= idx) ++offset;] position.hpp:1447-1450. *)
Fixpoint scan (rest : list N) (idx off : N) : res N :=
  match rest with
  | [] => UB
  | s :: rest' => if s <=? idx then scan rest' idx (off + 1) else Ok off
  end.

(** index(idx): 106, 138, 200 (leaf), 232, 780, 1154, 1445-1451, and 730 for the
    singleton. *)
Definition index (v : nat) (p : pos T) (idx : N) : res N :=
  match v with
  | O => Ok (N.land idx lmask)
  | S l =>
      match p with
      | PRel _ sz => let o := N.shiftr idx (sh l) in scan (dropN o sz) idx o
      | PSingle _ _ => Ok 0
      | PNone => UB
      | _ => Ok (N.land (N.shiftr idx (sh l)) mask)
      end
  end.

(** subindex(idx): 107, 139, 201 (leaf), 233, 781, 1155, 1426.  The result is a 32-bit
    count in the code; it is not truncated here. *)
Definition subindex (v : nat) (p : pos T) (idx : N) : res N :=
  match v with
  | O => Ok idx
  | S l =>
      match p with
      | PRel _ sz => let o := N.shiftr idx (sh l) in scan (dropN o sz) idx o
      | PSingle _ _ => Ok 0
      | PNone => UB
      | _ => Ok (N.shiftr idx (sh l))
      end
  end.

(** count(): 73, 102, 134, 196, 228, 726, 776, 1150, 1422. *)
Definition count (v : nat) (p : pos T) : res N :=
  match p with
  | PFull _ => Ok (match v with O => lwidth | S _ => width end)
  | PReg _ s => i <- index v p (s - 1) ;; Ok (i + 1)
  | PSub _ s => match v with O => Ok s | S l => Ok (N.shiftr (s - 1) (sh l) + 1) end
  | PRel _ sz => Ok (lenN sz)
  | PSingle _ _ => Ok 1
  | PNone => Ok 0
  end.

(** size(): 76, 104, 136, 198, 230, 728, 778, 1152, 1424. *)
Definition psize (v : nat) (p : pos T) : res N :=
  match p with
  | PFull _ => Ok (match v with O => lwidth | S l => N.shiftl width (sh l) end)
  | PReg _ s | PSub _ s | PSingle _ s => Ok s
  | PRel _ sz => last_of sz
  | PNone => Ok 0
  end.

(** size_before(offset): 732, 782-785, 1161-1164, 1429-1432. *)
Definition size_before (v : nat) (p : pos T) (off : N) : res N :=
  match v, p with
  | S l, PSub _ _ | S l, PFull _ => Ok (N.shiftl off (sh l))
  | S _, PRel _ sz => if off =? 0 then Ok 0 else rnthN sz (off - 1)
  | _, PSingle _ _ => Ok 0
  | _, _ => UB
  end.

(** size_sbh(offset, hint) and size(offset) with hint = size_before(offset): 788-799,
    1156-1160, 1434-1443. *)
Definition size_sbh (v : nat) (p : pos T) (off sb : N) : res N :=
  match v, p with
  | S l, PSub _ s =>
      Ok (if off =? N.shiftr (s - 1) (sh l) then s - sb else N.shiftl 1 (sh l))
  | S l, PFull _ => Ok (N.shiftl 1 (sh l))
  | S _, PRel _ sz => t <- rnthN sz off ;; Ok (t - sb)
  | _, _ => UB
  end.
Definition size_at (v : nat) (p : pos T) (off : N) : res N :=
  sb <- size_before v p off ;; size_sbh v p off sb.

(** copy_sizes(offset, n, init, sizes): the entries written.
    801-813 (regular_sub_pos), 1166-1173 (full_pos), 1453-1464 (relaxed_pos). *)
Definition copy_sizes (v : nat) (p : pos T) (off n init : N) : res (list N) :=
  match v, p with
  | S l, PSub _ _ =>
      if n =? 0 then Ok []
      else
        last <- size_at v p (off + n - 1) ;;
        Ok (sums init (repeat (N.shiftl 1 (sh l)) (N.to_nat (n - 1)) ++ [last]))
  | S l, PFull _ => Ok (sums init (repeat (N.shiftl 1 (sh l)) (N.to_nat n)))
  | S _, PRel _ sz =>
      prev <- size_before v p off ;;
      these <- rsliceN off (off + n) sz ;;
      Ok ((fix go (prev init : N) (l : list N) : list N :=
             match l with
             | [] => []
             | t :: l' => (init + (t - prev)) :: go t (init + (t - prev)) l'
             end) prev init these)
  | _, _ => UB
  end.

(** Children of a relaxed position from index [i] up to [j], [s] being the size before
    [i]: the loops of 1472-1667. *)
Fixpoint rel_go (v : nat) (cs : list (node T)) (sz : list N) (s : N) : res (list (pos T)) :=
  match cs, sz with
  | [], _ | _, [] => Ok []
  | c :: cs', t :: sz' =>
      p <- child_pos v c (t - s) ;;
      ps <- rel_go v cs' sz' t ;;
      Ok (p :: ps)
  end.
Definition rel_range (v : nat) (n : node T) (sz : list N) (i j : N) : res (list (pos T)) :=
  cs <- inner_of n ;;
  if j <=? i then Ok []
  else
    s <- (if i =? 0 then Ok 0 else rnthN sz (i - 1)) ;;
    cs' <- rsliceN i j cs ;;
    sz' <- rsliceN i j sz ;;
    rel_go v cs' sz' s.

(** The traversals call a visitor on child positions from left to right; each function
    below returns that list of child positions (of level [l] for a position of level
    [S l]). *)

(** each_regular 339-359, each_right_regular 593-621: full children up to the last one,
    which is viewed with the size of the whole position. *)
Definition regular_right (p : pos T) (cs : list (node T)) (s start last : N)
  : res (list (pos T)) :=
  hd <- rsliceN start last cs ;;
  c <- rnthN cs last ;;
  q <- mk_reg c s ;;
  Ok (map PFull hd ++ [q]).

(** each(v): 339-359, 1175-1190, 1466-1470; 740 for the singleton. *)
Definition each (l : nat) (p : pos T) : res (list (pos T)) :=
  match p with
  | PReg n s | PSub n s =>
      cs <- inner_of n ;; c <- count (S l) p ;; regular_right p cs s 0 (c - 1)
  | PFull n => cs <- inner_of n ;; hd <- rtakeN width cs ;; Ok (map PFull hd)
  | PRel n sz => rel_range l n sz 0 (lenN sz)
  | PSingle _ _ => Ok []
  | PNone => UB
  end.

(** each_left(v, n): 571-591, 1306-1310, 1613-1635. *)
Definition each_left (l : nat) (p : pos T) (n : N) : res (list (pos T)) :=
  match p with
  | PReg nd _ | PSub nd _ =>
      c <- count (S l) p ;;
      if n <? c then cs <- inner_of nd ;; hd <- rtakeN n cs ;; Ok (map PFull hd) else UB
  | PFull nd => cs <- inner_of nd ;; hd <- rtakeN n cs ;; Ok (map PFull hd)
  | PRel nd sz => rel_range l nd sz 0 n
  | _ => UB
  end.

(** each_right(v, start): 593-621, 1300-1304, 1643-1667. *)
Definition each_right (l : nat) (p : pos T) (start : N) : res (list (pos T)) :=
  match p with
  | PReg n s | PSub n s =>
      cs <- inner_of n ;; c <- count (S l) p ;;
      if start <=? c - 1 then regular_right p cs s start (c - 1) else Ok []
  | PFull n => cs <- inner_of n ;; hd <- rsliceN start width cs ;; Ok (map PFull hd)
  | PRel n sz =>
      if (0 <? start) && (start <=? lenN sz) then rel_range l n sz start (lenN sz) else UB
  | _ => UB
  end.

(** each_i(v, f, l): 527-569, 1253-1268, 1577-1599. *)
Definition each_i (l : nat) (p : pos T) (f e : N) : res (list (pos T)) :=
  match p with
  | PReg n s | PSub n s =>
      cs <- inner_of n ;; c <- count (S l) p ;;
      if f <? e then
        if e <? c then hd <- rsliceN f e cs ;; Ok (map PFull hd)
        else regular_right p cs s f (e - 1)
      else Ok []
  | PFull n => cs <- inner_of n ;; hd <- rsliceN f e cs ;; Ok (map PFull hd)
  | PRel n sz => rel_range l n sz f e
  | _ => UB
  end.

(** each_right_sub_(v, i): 869-888 (32-bit shift of [last]). *)
Definition each_right_sub_ (l : nat) (nd : node T) (s i : N) : res (list (pos T)) :=
  cs <- inner_of nd ;;
  c <- count (S l) (PSub nd s) ;;
  o <- shl32 (c - 1) (sh l) ;;
  hd <- rsliceN i (c - 1) cs ;;
  x <- rnthN cs (c - 1) ;;
  q <- mk_sub l x (s - o) ;;
  Ok (map PFull hd ++ [q]).

(** each_right_sub(v): 896-901, 1294-1298, 1637-1641. *)
Definition each_right_sub (l : nat) (p : pos T) : res (list (pos T)) :=
  match p with
  | PSub nd s =>
      c <- count (S l) p ;;
      if 1 <? c then each_right_sub_ l nd s 1 else Ok []
  | PFull _ => each_i l p 1 width
  | PRel nd sz => each_right l p 1
  | _ => UB
  end.

(** each_left_sub(v): 903-907, 1288-1292, 1607-1611, and 736 for the singleton. *)
Definition each_left_sub (l : nat) (p : pos T) : res (list (pos T)) :=
  match p with
  | PSub _ _ | PRel _ _ => c <- count (S l) p ;; each_left l p (c - 1)
  | PFull _ => each_i l p 0 (width - 1)
  | PSingle _ _ => Ok []
  | _ => UB
  end.

(** towards, towards_oh, towards_oh_ch (idx, offset): the child position and the index
    passed on.  623-646 (towards_oh_ch_regular), 1312-1335, 1669-1692 with 1703-1722. *)
Definition towards (l : nat) (p : pos T) (idx off : N) : res (pos T * N) :=
  match p with
  | PReg n s | PSub n s =>
      cs <- inner_of n ;; c <- rnthN cs off ;; k <- count (S l) p ;;
      if off + 1 =? k then q <- mk_reg c s ;; Ok (q, idx) else Ok (PFull c, idx)
  | PFull n => cs <- inner_of n ;; c <- rnthN cs off ;; Ok (PFull c, idx)
  | PRel n sz =>
      cs <- inner_of n ;;
      left <- (if off =? 0 then Ok 0 else rnthN sz (off - 1)) ;;
      c <- rnthN cs off ;;
      t <- rnthN sz off ;;
      q <- child_pos l c (t - left) ;;
      Ok (q, idx - left)
  | _ => UB
  end.

(** this_size(): 234-237, 786. *)
Definition this_size (l : nat) (p : pos T) : res N :=
  match p with
  | PReg _ s => Ok (N.land (s - 1) (N.ones (sh l + B)) + 1)
  | PSub _ s => Ok s
  | _ => UB
  end.

(** towards_sub_oh: 648-670 (32-bit shift of the offset), 1337-1349, 1694-1722. *)
Definition towards_sub (l : nat) (p : pos T) (idx off : N) : res (pos T * N) :=
  match p with
  | PReg n _ | PSub n _ =>
      cs <- inner_of n ;; c <- rnthN cs off ;;
      lsize <- shl32 off (sh l) ;;
      s <- this_size l p ;;
      if N.shiftl 1 (sh l) <=? s - lsize then Ok (PFull c, idx - lsize)
      else q <- mk_sub l c (s - lsize) ;; Ok (q, idx - lsize)
  | PFull n =>
      cs <- inner_of n ;; c <- rnthN cs off ;; Ok (PFull c, idx - N.shiftl off (sh l))
  | PRel _ _ => towards l p idx off
  | _ => UB
  end.

(** last_oh(offset): 672-684. *)
Definition last_oh (p : pos T) (off : N) : res (pos T) :=
  match p with
  | PReg n s | PSub n s => cs <- inner_of n ;; c <- rnthN cs off ;; mk_reg c s
  | _ => UB
  end.

(** last_sub: 948-958, 1740-1750, 743-747 for the singleton. *)
Definition last_sub (l : nat) (p : pos T) : res (pos T) :=
  match p with
  | PSub n s =>
      cs <- inner_of n ;; c <- count (S l) p ;; x <- rnthN cs (c - 1) ;;
      mk_sub l x (s - N.shiftl (c - 1) (sh l))
  | PRel n sz =>
      cs <- inner_of n ;; x <- rnthN cs (lenN sz - 1) ;;
      s <- size_at (S l) p (lenN sz - 1) ;; child_pos l x s
  | PSingle n c => mk_sub O n c
  | _ => UB
  end.

(** first_sub: 960-974, 1351-1358, 1752-1762; first_sub_leaf (976-984, 1360-1366,
    1764-1771) is the same at level 1. *)
Definition first_sub (l : nat) (p : pos T) : res (pos T) :=
  match p with
  | PSub n s =>
      cs <- inner_of n ;; x <- rnthN cs 0 ;;
      if N.shiftl 1 (sh l) <=? s then Ok (PFull x) else mk_sub l x s
  | PFull n => cs <- inner_of n ;; x <- rnthN cs 0 ;; Ok (PFull x)
  | PRel n sz =>
      cs <- inner_of n ;; x <- rnthN cs 0 ;; s <- rnthN sz 0 ;; child_pos l x s
  | _ => UB
  end.

(** node_t::make_path(shift, leaf): node.hpp:487-503.  [make_path v] builds a node of
    level [v]. *)
Fixpoint make_path (v : nat) (n : node T) : node T :=
  match v with O => n | S v' => Inner None [make_path v' n] end.

(** node_t::copy_leaf variants: node.hpp:655-668, 701-724, 767-780, and
    copy_leaf_emplace 782-795. *)
Definition copy_leaf (src : node T) (n : N) : res (node T) :=
  xs <- leaf_of src ;; ys <- rtakeN n xs ;; Ok (Leaf ys).
Definition copy_leaf_range (src : node T) (i j : N) : res (node T) :=
  xs <- leaf_of src ;; ys <- rsliceN i j xs ;; Ok (Leaf ys).
Definition copy_leaf2 (s1 : node T) (n1 : N) (s2 : node T) (n2 : N) : res (node T) :=
  xs <- leaf_of s1 ;; a <- rtakeN n1 xs ;;
  ys <- leaf_of s2 ;; b <- rtakeN n2 ys ;; Ok (Leaf (a ++ b)).
Definition copy_leaf_emplace (src : node T) (n : N) (x : T) : res (node T) :=
  xs <- leaf_of src ;; ys <- rtakeN n xs ;; Ok (Leaf (ys ++ [x])).

(** update_visitor: operations.hpp:457-514. *)
Fixpoint update_node (v : nat) (p : pos T) (idx : N) (fn : T -> T) : res (node T) :=
  off <- index v p idx ;;
  k <- count v p ;;
  match v with
  | O =>
      n <- pnode p ;; xs <- leaf_of n ;; ys <- rtakeN k xs ;;
      x <- rnthN ys off ;;
      Ok (Leaf (updN off (fn x) ys))
  | S l =>
      cs <- pinner p ;;
      ' (q, idx') <- towards l p idx off ;;
      c <- update_node l q idx' fn ;;
      cs' <- rtakeN k cs ;;
      Ok (Inner (match p with PRel _ sz => Some sz | _ => None end) (updN off c cs'))
  end.

(** push_tail_visitor: operations.hpp:779-857.  [None] is the null result: no room. *)
Fixpoint push_tail_node (v : nat) (p : pos T) (tl : node T) (ts : N) : res (option (node T)) :=
  match v with
  | O => UB
  | S l =>
      match p with
      | PRel n sz =>
          let idx := lenN sz - 1 in
          children <- size_at v p idx ;;
          s <- last_of sz ;;
          cs <- inner_of n ;;
          let finish new_idx new_child :=
            cs' <- rtakeN new_idx cs ;;
            sz' <- rtakeN new_idx sz ;;
            Ok (Some (Inner (Some (sz' ++ [s + ts])) (cs' ++ [new_child]))) in
          if (children =? N.shiftl 1 (sh l)) || match l with O => true | _ => false end then
            if width <=? idx + 1 then Ok None
            else finish (idx + 1) (make_path l tl)
          else if width <=? idx then Ok None
          else
            x <- rnthN cs idx ;;
            q <- child_pos l x children ;;
            r <- push_tail_node l q tl ts ;;
            match r with
            | Some c => finish idx c
            | None =>
                if idx + 1 <? width then finish (idx + 1) (make_path l tl) else Ok None
            end
      | PReg n s | PSub n s =>
          if negb (N.land s lmask =? 0) then UB
          else
            cs <- inner_of n ;;
            idx <- index v p (s - 1) ;;
            new_idx <- index v p (s + lwidth - 1) ;;
            c <- (if idx =? new_idx then
                    q <- last_oh p idx ;;
                    r <- push_tail_node l q tl ts ;;
                    match r with Some c => Ok c | None => UB end
                  else Ok (make_path l tl)) ;;
            cs' <- rtakeN new_idx cs ;;
            Ok (Some (Inner None (cs' ++ [c])))
      | _ => UB
      end
  end.

(** slice_right_visitor: operations.hpp:1080-1188.  The result is the new root with
    its level (none for the null root), the size of the new tail and the new tail. *)
Fixpoint slice_right (collapse : bool) (v : nat) (p : pos T) (last : N)
  : res (option (nat * node T) * N * node T) :=
  match v with
  | O =>
      n <- pnode p ;;
      old <- count O p ;;
      i <- index O p last ;;
      if i + 1 =? old then Ok (None, i + 1, n)
      else t <- copy_leaf n (i + 1) ;; Ok (None, i + 1, t)
  | S l =>
      idx <- index v p last ;;
      ' (q, last') <- towards l p last idx ;;
      if collapse && (idx =? 0) then slice_right true l q last'
      else
        ' (next, ts, tl) <- slice_right false l q last' ;;
        cs <- pinner p ;;
        match next with
        | Some (_, c) =>
            cs' <- rtakeN idx cs ;;
            match p with
            | PRel _ sz =>
                sz' <- rtakeN idx sz ;;
                Ok (Some (v, Inner (Some (sz' ++ [last + 1 - ts])) (cs' ++ [c])), ts, tl)
            | _ => Ok (Some (v, Inner None (cs' ++ [c])), ts, tl)
            end
        | None =>
            if idx =? 0 then Ok (None, ts, tl)
            else if collapse && (idx =? 1) && match l with O => false | _ => true end then
              c <- rnthN cs 0 ;; Ok (Some (l, c), ts, tl)
            else
              cs' <- rtakeN idx cs ;;
              match p with
              | PRel _ sz =>
                  sz' <- rtakeN idx sz ;;
                  Ok (Some (v, Inner (Some sz') cs'), ts, tl)
              | _ => Ok (Some (v, Inner None cs'), ts, tl)
              end
        end
  end.

(** slice_left_visitor: operations.hpp:1398-1459. *)
Fixpoint slice_left (collapse : bool) (v : nat) (p : pos T) (first : N)
  : res (nat * node T) :=
  match v with
  | O =>
      n <- pnode p ;;
      i <- index O p first ;;
      k <- count O p ;;
      t <- copy_leaf_range n i k ;; Ok (O, t)
  | S l =>
      idx <- subindex v p first ;;
      k <- count v p ;;
      left <- size_before v p idx ;;
      csz <- size_sbh v p idx left ;;
      ' (q, first') <- towards_sub l p first idx ;;
      if collapse && match l with O => false | _ => true end && (idx + 1 =? k) then
        slice_left true l q first'
      else
        ' (_, c) <- slice_left false l q first' ;;
        cs <- pinner p ;;
        let s0 := csz - (first - left) in
        sz' <- copy_sizes v p (idx + 1) (k - idx - 1) s0 ;;
        cs' <- rsliceN (idx + 1) k cs ;;
        Ok (v, Inner (Some (s0 :: sz')) (c :: cs'))
  end.

(** ** Concatenation *)

(** concat_center_pos: operations.hpp:1461-1504.  [c_lv] is the level of the nodes;
    the sizes are running totals; there are at most three nodes. *)
Record center : Type := mkCenter
  { c_lv : nat; c_nodes : list (node T); c_sizes : list N }.

(** each_sub: 1506-1520. *)
Definition center_each (c : center) : res (list (pos T)) :=
  match c_lv c with
  | O => rel_go O (c_nodes c) (c_sizes c) 0
  | S _ =>
      rmap (fun n => match n with Inner (Some sz) _ => Ok (PRel n sz) | _ => UB end)
           (c_nodes c)
  end.

(** realize: 1522-1541.  Level and root. *)
Definition realize (c : center) : res (nat * node T) :=
  if 1 <? lenN (c_nodes c) then
    Ok (S (c_lv c), Inner (Some (c_sizes c)) (c_nodes c))
  else
    match c_lv c, c_nodes c with
    | S l, n :: _ =>
        match n with Inner (Some _) _ => Ok (S l, n) | _ => UB end
    | _, _ => UB
    end.

(** concat_rebalance_plan::shuffle: 1756-1792.  [counts] is the used part of the table;
    reading or writing outside of it is [UB]. *)
(** [while (counts[i] > branches - rrb_invariant) i++;] *)
Fixpoint skip_ok (br : N) (rest : list N) (i : N) : res N :=
  match rest with
  | [] => UB
  | c :: rest' => if br - 1 <? c then skip_ok br rest' (i + 1) else Ok i
  end.
(** The do-while redistributing from [i]: returns the table and the final [i]. *)
Fixpoint redistribute (fuel : nat) (br : N) (counts : list N) (i remaining : N)
  : res (list N * N) :=
  match fuel with
  | O => UB
  | S f =>
      next <- rnthN counts (i + 1) ;;
      let cnt := N.min (remaining + next) br in
      if cnt =? 0 then UB
      else
        let counts' := updN i cnt counts in
        let remaining' := remaining + next - cnt in
        if 0 <? remaining' then redistribute f br counts' (i + 1) remaining'
        else Ok (counts', i + 1)
  end.
Fixpoint shuffle_loop (fuel : nat) (br optimal : N) (counts : list N) (i : N) : res (list N) :=
  if lenN counts <? optimal + 2 then Ok counts
  else
    match fuel with
    | O => UB
    | S f =>
        i1 <- skip_ok br (dropN i counts) i ;;
        remaining <- rnthN counts i1 ;;
        ' (counts1, i2) <- redistribute (S (length counts)) br counts i1 remaining ;;
        if i2 <? lenN counts1 then
          let counts2 := takeN i2 counts1 ++ dropN (i2 + 1) counts1 in
          shuffle_loop f br optimal counts2 (i2 - 1)
        else UB
    end.
Definition shuffle (cl : nat) (counts : list N) : res (list N) :=
  let bits := match cl with O => BL | S _ => B end in
  let total := sumN counts in
  let optimal := N.shiftr (total - 1) bits + 1 in
  shuffle_loop (length counts) (2 ^ bits) optimal counts 0.

(** concat_merger: 1559-1702.  A node being filled, with the capacity it was allocated
    with (make_inner_r_n(min(n_, branches))). *)
Record parent : Type := mkParent
  { p_cap : N; p_kids : list (node T); p_sizes : list N }.
Record merger : Type := mkMerger
  { m_curr : list N;                 (* curr_: remaining counts *)
    m_n : N;                         (* n_ *)
    m_done : list parent;            (* finished result_ nodes *)
    m_par : parent;                  (* the last result_ node *)
    m_sizes : list N;                (* result_.sizes_, last first *)
    m_to : option (node T) }.        (* to_; to_offset_ is its number of entries *)

(** constructor: 1572-1577. *)
Definition merger_init (counts : list N) : merger :=
  mkMerger counts (lenN counts) [] (mkParent (N.min (lenN counts) width) [] []) [0] None.

(** add_child: 1583-1605. *)
Definition add_child (m : merger) (n : node T) (sz : N) : res merger :=
  if sz =? 0 then UB
  else
    match m_curr m, m_sizes m with
    | _ :: curr, s0 :: ss =>
        ' (n_, done, par, ss', s) <-
          (if lenN (p_kids (m_par m)) =? width then
             if (lenN (m_done m) + 1 <? 3) && (width <=? m_n m) then
               let n_ := m_n m - width in
               Ok (n_, m_done m ++ [m_par m], mkParent (N.min n_ width) [] [], s0 :: ss, s0)
             else UB
           else Ok (m_n m, m_done m, m_par m, ss, s0)) ;;
        let idx := lenN (p_kids par) in
        if idx <? p_cap par then
          prev <- (if idx =? 0 then Ok 0 else rnthN (p_sizes par) (idx - 1)) ;;
          Ok (mkMerger curr n_ done
                (mkParent (p_cap par) (p_kids par ++ [n]) (p_sizes par ++ [sz + prev]))
                (s + sz :: ss') None)
        else UB
    | _, _ => UB
    end.

Definition curr_of (m : merger) : res N :=
  match m_curr m with c :: _ => Ok c | [] => UB end.

(** merge_leaf: 1607-1639; the loop over the remaining source elements. *)
Fixpoint merge_leaf_go (fuel : nat) (m : merger) (from : list T) : res merger :=
  match fuel with
  | O => UB
  | S f =>
      cur <- curr_of m ;;
      to <- match m_to m with
            | None => Ok []
            | Some n => leaf_of n
            end ;;
      if cur <? lenN to then UB
      else
        let to_copy := N.min (lenN from) (cur - lenN to) in
        let to' := to ++ takeN to_copy from in
        let from' := dropN to_copy from in
        m' <- (if cur =? lenN to' then add_child m (Leaf to') (lenN to')
               else Ok (mkMerger (m_curr m) (m_n m) (m_done m) (m_par m) (m_sizes m)
                                 (Some (Leaf to')))) ;;
        match from' with [] => Ok m' | _ => merge_leaf_go f m' from' end
  end.
Definition merge_leaf (m : merger) (p : pos T) : res merger :=
  n <- pnode p ;; s <- psize O p ;; k <- count O p ;; xs <- leaf_of n ;; cur <- curr_of m ;;
  if s =? 0 then UB
  else match m_to m with
       | None => if cur =? k then add_child m n s
                 else ys <- rtakeN k xs ;; merge_leaf_go (S (length ys)) m ys
       | Some _ => ys <- rtakeN k xs ;; merge_leaf_go (S (length ys)) m ys
       end.

(** merge_inner: 1641-1681. *)
Fixpoint merge_inner_go (fuel : nat) (m : merger) (v : nat) (p : pos T)
    (cs : list (node T)) (off k : N) : res merger :=
  match fuel with
  | O => UB
  | S f =>
      cur <- curr_of m ;;
      ' (tosz, tocs) <- match m_to m with
                        | None => Ok ([], [])
                        | Some (Inner (Some sz) ks) => Ok (sz, ks)
                        | Some _ => UB
                        end ;;
      if cur <? lenN tocs then UB
      else
        let to_copy := N.min (k - off) (cur - lenN tocs) in
        new <- rsliceN off (off + to_copy) cs ;;
        to_size <- (if lenN tosz =? 0 then Ok 0 else last_of tosz) ;;
        nsz <- copy_sizes v p off to_copy to_size ;;
        let tocs' := tocs ++ new in
        let tosz' := tosz ++ nsz in
        sz' <- last_of tosz' ;;
        m' <- (if cur =? lenN tocs' then add_child m (Inner (Some tosz') tocs') sz'
               else Ok (mkMerger (m_curr m) (m_n m) (m_done m) (m_par m) (m_sizes m)
                                 (Some (Inner (Some tosz') tocs')))) ;;
        if off + to_copy =? k then Ok m'
        else merge_inner_go f m' v p cs (off + to_copy) k
  end.
Definition merge_inner (m : merger) (v : nat) (p : pos T) : res merger :=
  n <- pnode p ;; s <- psize v p ;; k <- count v p ;; cs <- inner_of n ;; cur <- curr_of m ;;
  if s =? 0 then UB
  else match m_to m with
       | None => if cur =? k then add_child m n s
                 else merge_inner_go (S (N.to_nat k)) m v p cs 0 k
       | Some _ => merge_inner_go (S (N.to_nat k)) m v p cs 0 k
       end.

Fixpoint merge_all (cl : nat) (m : merger) (ps : list (pos T)) : res merger :=
  match ps with
  | [] => Ok m
  | p :: ps' =>
      m' <- match cl with O => merge_leaf m p | S _ => merge_inner m cl p end ;;
      merge_all cl m' ps'
  end.

(** finish: 1683-1687 and the conversion of the result to a center position one level
    up. *)
Definition merger_finish (cl : nat) (m : merger) : res center :=
  match m_to m with
  | Some _ => UB
  | None =>
      Ok (mkCenter (S cl)
            (map (fun q => Inner (Some (p_sizes q)) (p_kids q)) (m_done m ++ [m_par m]))
            (rev (m_sizes m)))
  end.

(** concat_rebalance: 1816-1829, with fill 1721-1734, 1745-1754 and merge 1794-1813.  An absent
    side is null_sub_pos (position.hpp:695-711).  [c_lv c] is the level of the children of all three
    positions. *)
Definition concat_rebalance (lp : option (pos T)) (c : center) (rp : option (pos T))
  : res center :=
  ls <- match lp with Some p => each_left_sub (c_lv c) p | None => Ok [] end ;;
  ms <- center_each c ;;
  rs <- match rp with Some p => each_right_sub (c_lv c) p | None => Ok [] end ;;
  let ps := ls ++ ms ++ rs in
  counts <- rmap (count (c_lv c)) ps ;;
  if 2 * width + 1 <? lenN counts then UB
  else
    plan <- shuffle (c_lv c) counts ;;
    m <- merge_all (c_lv c) (merger_init plan) ps ;;
    merger_finish (c_lv c) m.

(** concat_leafs: 1831-1856. *)
Definition concat_leafs (lp tp rp : pos T) : res center :=
  ln <- pnode lp ;; lc <- count O lp ;;
  rn <- pnode rp ;; rc <- count O rp ;;
  tc <- count O tp ;;
  if 0 <? tc then
    tn <- pnode tp ;;
    Ok (mkCenter O [ln; tn; rn] [lc; lc + tc; lc + tc + rc])
  else Ok (mkCenter O [ln; rn] [lc; lc + rc]).

(** concat_inners and its visitors: 1865-1942.  [ll], [rl] are the levels of the two
    positions (both at least 1). *)
Fixpoint concat_inners (fuel : nat) (ll rl : nat) (lp tp rp : pos T) : res center :=
  match fuel, ll, rl with
  | S f, S l, S r =>
      if Nat.ltb r l then
        q <- last_sub l lp ;;
        c <- match l with O => UB | S _ => concat_inners f l rl q tp rp end ;;
        concat_rebalance (Some lp) c None
      else if Nat.ltb l r then
        q <- first_sub r rp ;;
        c <- match r with O => concat_leafs lp tp q | S _ => concat_inners f ll r lp tp q end ;;
        concat_rebalance None c (Some rp)
      else
        ql <- last_sub l lp ;;
        qr <- first_sub r rp ;;
        c <- match l with
             | O => concat_leafs ql tp qr
             | S _ => concat_inners f l r ql tp qr
             end ;;
        concat_rebalance (Some lp) c (Some rp)
  | _, _, _ => UB
  end.

(** concat_trees: 1972-2004. *)
Definition concat_trees (lp : pos T) (ll : nat) (tp : pos T) (rroot : node T) (rl : nat)
    (rsize : N) : res (nat * node T) :=
  rp <- maybe_relaxed rl rroot rsize ;;
  c <- concat_inners (ll + rl) ll rl lp tp rp ;;
  realize c.

(** ** rrbtree (flex_vector): rrbtree.hpp *)

(** default constructor 101-108: shift BL, empty root, empty tail. *)
Definition empty : tree T := mkTree 0 0 (Inner None []) (Leaf []).

(** tail_offset: 165-173. *)
Definition tail_offset (t : tree T) : res N :=
  match root t with
  | Inner (Some sz) _ => last_of sz
  | Inner None _ => Ok (if size t =? 0 then 0 else N.ldiff (size t - 1) lmask)
  | Leaf _ => UB
  end.

(** push_tail: 333-382. *)
Definition push_tail (rt : node T) (l : nat) (sz : N) (tl : node T) (ts : N)
  : res (nat * node T) :=
  match rt with
  | Inner (Some rs) _ =>
      r <- push_tail_node (S l) (PRel rt rs) tl ts ;;
      match r with
      | Some n => Ok (l, n)
      | None =>
          if (0 <? sz) && (0 <? ts) then
            Ok (S l, Inner (Some [sz; sz + ts]) [rt; make_path (S l) tl])
          else UB
      end
  | Inner None _ =>
      if sz =? N.shiftl width (sh l) then
        Ok (S l, Inner None [rt; make_path (S l) tl])
      else if 0 <? sz then
        p <- mk_sub (S l) rt sz ;;
        r <- push_tail_node (S l) p tl ts ;;
        match r with Some n => Ok (l, n) | None => UB end
      else Ok (l, make_path (S l) tl)
  | Leaf _ => UB
  end.

(** push_back: 468-490. *)
Definition push_back (t : tree T) (x : T) : res (tree T) :=
  tail_off <- tail_offset t ;;
  let ts := size t - tail_off in
  if ts <? lwidth then
    tl <- copy_leaf_emplace (tail t) ts x ;;
    Ok (mkTree (size t + 1) (lv t) (root t) tl)
  else
    ' (l, r) <- push_tail (root t) (lv t) tail_off (tail t) (size t - tail_off) ;;
    Ok (mkTree (size t + 1) l r (Leaf [x])).

(** get_visitor over descents: position.hpp:156-185, 1044-1107, 1843-1934.  No bound on
    the depth here; the bound is in [get]. *)
Fixpoint get_regular (v : nat) (n : node T) (idx : N) : res T :=
  match v with
  | O => xs <- leaf_of n ;; rnthN xs (N.land idx lmask)
  | S l =>
      cs <- inner_of n ;;
      c <- rnthN cs (N.land (N.shiftr idx (sh l)) mask) ;;
      get_regular l c idx
  end.
Fixpoint get_relaxed (v : nat) (n : node T) (idx : N) : res T :=
  match v, n with
  | S l, Inner (Some sz) cs =>
      let o := match l with
               | O => N.land (N.shiftr idx BL) mask
               | S _ => N.shiftr idx (sh l)
               end in
      off <- scan (dropN o sz) idx o ;;
      c <- rnthN cs off ;;
      left <- (if off =? 0 then Ok 0 else rnthN sz (off - 1)) ;;
      match l, c with
      | O, _ => get_regular O c (idx - left)
      | S _, Inner (Some _) _ => get_relaxed l c (idx - left)
      | S _, Inner None _ => get_regular l c (idx - left)
      | S _, Leaf _ => UB
      end
  | _, _ => UB
  end.
(** visit_maybe_relaxed_descent 1936-1990 and visit_regular_descent 1110-1138: the
    switch has cases for six values of shift only (IMMER_DESCENT_DEEP is 0,
    config.hpp:114); any other shift is IMMER_UNREACHABLE. *)
Definition descend (l : nat) (n : node T) (idx : N) : res T :=
  if Nat.ltb l 6 then
    match n with
    | Inner (Some _) _ => get_relaxed (S l) n idx
    | Inner None _ => get_regular (S l) n idx
    | Leaf _ => UB
    end
  else UB.

(** get 524-527 over descend 249-256. *)
Definition get (t : tree T) (idx : N) : res T :=
  tail_off <- tail_offset t ;;
  if tail_off <=? idx then get_regular O (tail t) (idx - tail_off)
  else descend (lv t) (root t) idx.

(** get_check 529-534; [None] is the out_of_range exception. *)
Definition get_check (t : tree T) (idx : N) : res (option T) :=
  if size t <=? idx then Ok None else x <- get t idx ;; Ok (Some x).

(** update 547-562. *)
Definition update (t : tree T) (idx : N) (fn : T -> T) : res (tree T) :=
  tail_off <- tail_offset t ;;
  if tail_off <=? idx then
    p <- mk_sub O (tail t) (size t - tail_off) ;;
    tl <- update_node O p (idx - tail_off) fn ;;
    Ok (mkTree (size t) (lv t) (root t) tl)
  else
    p <- maybe_relaxed (S (lv t)) (root t) tail_off ;;
    r <- update_node (S (lv t)) p idx fn ;;
    Ok (mkTree (size t) (lv t) r (tail t)).
(** assoc 569-572. *)
Definition assoc (t : tree T) (idx : N) (x : T) : res (tree T) := update t idx (fun _ => x).

(** take 615-641. *)
Definition take (t : tree T) (new_size : N) : res (tree T) :=
  tail_off <- tail_offset t ;;
  if new_size =? 0 then Ok empty
  else if size t <=? new_size then Ok t
  else if tail_off <? new_size then
    tl <- copy_leaf (tail t) (new_size - tail_off) ;;
    Ok (mkTree new_size (lv t) (root t) tl)
  else
    p <- maybe_relaxed (S (lv t)) (root t) tail_off ;;
    ' (nr, _, tl) <- slice_right true (S (lv t)) p (new_size - 1) ;;
    match nr with
    | Some (S l, r) => Ok (mkTree new_size l r tl)
    | Some (O, _) => UB
    | None => Ok (mkTree new_size 0 (Inner None []) tl)
    end.

(** drop 679-701. *)
Definition drop (t : tree T) (elems : N) : res (tree T) :=
  if elems =? 0 then Ok t
  else if size t <=? elems then Ok empty
  else
    tail_off <- tail_offset t ;;
    if elems =? tail_off then
      Ok (mkTree (size t - elems) 0 (Inner None []) (tail t))
    else if tail_off <? elems then
      tl <- copy_leaf_range (tail t) (elems - tail_off) (size t - tail_off) ;;
      Ok (mkTree (size t - elems) 0 (Inner None []) tl)
    else
      p <- maybe_relaxed (S (lv t)) (root t) tail_off ;;
      ' (h, r) <- slice_left true (S (lv t)) p elems ;;
      match h with
      | S l => Ok (mkTree (size t - elems) l r (tail t))
      | O => UB
      end.

(** concat 703-779. *)
Definition concat (t r : tree T) : res (tree T) :=
  if size t =? 0 then Ok r
  else if size r =? 0 then Ok t
  else
    roff <- tail_offset r ;;
    toff <- tail_offset t ;;
    let ts := size t - toff in
    if roff =? 0 then
      if ts =? lwidth then
        ' (l, rt) <- push_tail (root t) (lv t) toff (tail t) ts ;;
        Ok (mkTree (size t + size r) l rt (tail r))
      else if ts + size r <=? lwidth then
        tl <- copy_leaf2 (tail t) ts (tail r) (size r) ;;
        Ok (mkTree (size t + size r) (lv t) (root t) tl)
      else
        let remaining := lwidth - ts in
        add_tail <- copy_leaf2 (tail t) ts (tail r) remaining ;;
        new_tail <- copy_leaf_range (tail r) remaining (size r) ;;
        ' (l, rt) <- push_tail (root t) (lv t) toff add_tail lwidth ;;
        Ok (mkTree (size t + size r) l rt new_tail)
    else if toff =? 0 then
      ' (h, rt) <- concat_trees (PSingle (tail t) ts) 1 PNone (root r) (S (lv r)) roff ;;
      match h with
      | S l => Ok (mkTree (size t + size r) l rt (tail r))
      | O => UB
      end
    else
      lp <- maybe_relaxed (S (lv t)) (root t) toff ;;
      tp <- mk_reg (tail t) ts ;;
      ' (h, rt) <- concat_trees lp (S (lv t)) tp (root r) (S (lv r)) roff ;;
      match h with
      | S l => Ok (mkTree (size t + size r) l rt (tail r))
      | O => UB
      end.

(** flex_vector.hpp: push_front 266-269, insert 437-457, erase 475-488. *)
Definition push_front (t : tree T) (x : T) : res (tree T) :=
  v <- push_back empty x ;; concat v t.
Definition insert (t : tree T) (i : N) (x : T) : res (tree T) :=
  a <- take t i ;; b <- push_back a x ;; c <- drop t i ;; concat b c.
Definition insert_vec (t : tree T) (i : N) (w : tree T) : res (tree T) :=
  a <- take t i ;; b <- concat a w ;; c <- drop t i ;; concat b c.
Definition erase (t : tree T) (i : N) : res (tree T) :=
  a <- take t i ;; c <- drop t (i + 1) ;; concat a c.
Definition erase_range (t : tree T) (i j : N) : res (tree T) :=
  if i <? j then a <- take t i ;; c <- drop t j ;; concat a c else Ok t.

(** ** rbtree (vector): rbtree.hpp *)

(** tail_offset: 151. *)
Definition vtail_offset (t : tree T) : N :=
  if size t =? 0 then 0 else N.ldiff (size t - 1) lmask.

(** push_back: 317-359. *)
Definition vpush_back (t : tree T) (x : T) : res (tree T) :=
  let tail_off := vtail_offset t in
  let ts := size t - tail_off in
  if ts <? lwidth then
    tl <- copy_leaf_emplace (tail t) ts x ;;
    Ok (mkTree (size t + 1) (lv t) (root t) tl)
  else if tail_off =? N.shiftl width (sh (lv t)) then
    Ok (mkTree (size t + 1) (S (lv t))
          (Inner None [root t; make_path (S (lv t)) (tail t)]) (Leaf [x]))
  else if 0 <? tail_off then
    p <- mk_sub (S (lv t)) (root t) tail_off ;;
    r <- push_tail_node (S (lv t)) p (tail t) 0 ;;
    match r with
    | Some n => Ok (mkTree (size t + 1) (lv t) n (Leaf [x]))
    | None => UB
    end
  else Ok (mkTree (size t + 1) (lv t) (make_path (S (lv t)) (tail t)) (Leaf [x])).

(** get 378-381 over descend 216-222. *)
Definition vget (t : tree T) (idx : N) : res T :=
  if vtail_offset t <=? idx then get_regular O (tail t) idx
  else if Nat.ltb (lv t) 6 then get_regular (S (lv t)) (root t) idx
  else UB.

(** get_check 383-388. *)
Definition vget_check (t : tree T) (idx : N) : res (option T) :=
  if size t <=? idx then Ok None else x <- vget t idx ;; Ok (Some x).

(** update 401-416. *)
Definition vupdate (t : tree T) (idx : N) (fn : T -> T) : res (tree T) :=
  let tail_off := vtail_offset t in
  if tail_off <=? idx then
    p <- mk_sub O (tail t) (size t - tail_off) ;;
    tl <- update_node O p (idx - tail_off) fn ;;
    Ok (mkTree (size t) (lv t) (root t) tl)
  else
    p <- mk_sub (S (lv t)) (root t) tail_off ;;
    r <- update_node (S (lv t)) p idx fn ;;
    Ok (mkTree (size t) (lv t) r (tail t)).

(** take 428-454. *)
Definition vtake (t : tree T) (new_size : N) : res (tree T) :=
  let tail_off := vtail_offset t in
  if new_size =? 0 then Ok empty
  else if size t <=? new_size then Ok t
  else if tail_off <? new_size then
    tl <- copy_leaf (tail t) (new_size - tail_off) ;;
    Ok (mkTree new_size (lv t) (root t) tl)
  else
    p <- mk_sub (S (lv t)) (root t) tail_off ;;
    ' (nr, _, tl) <- slice_right true (S (lv t)) p (new_size - 1) ;;
    match nr with
    | Some (S l, r) => Ok (mkTree new_size l r tl)
    | Some (O, _) => UB
    | None => Ok (mkTree new_size 0 (Inner None []) tl)
    end.

End Rrb.
