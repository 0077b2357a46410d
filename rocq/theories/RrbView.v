(** Model of the read side of vector and flex_vector: chunked traversal, iterators,
    equality, max_size and the algorithms built on them.
    Source: /repo/immer/detail/rbts/{operations,position,rbtree,rrbtree,rbtree_iterator,
    rrbtree_iterator}.hpp and /repo/immer/algorithm.hpp.  Conventions as in Rrb.v. *)
From Coq Require Import List NArith ZArith Arith Bool.
From Verif Require Import Common NList Rrb.
Import ListNotations.
Local Open Scope N_scope.

Section View.
Context {T : Type}.
Variables B BL : N.

Notation sh := (sh B BL).
Notation width := (width B).
Notation lwidth := (lwidth BL).
Notation lmask := (lmask BL).
Notation mk_sub := (@mk_sub T B BL).
Notation maybe_relaxed := (@maybe_relaxed T B BL).
Notation child_pos := (@child_pos T B BL).
Notation count := (@count T B BL).
Notation index := (@index T B BL).
Notation each := (@each T B BL).
Notation each_left := (@each_left T B BL).
Notation each_right := (@each_right T B BL).
Notation each_i := (@each_i T B BL).
Notation towards := (@towards T B BL).
Notation size_before := (@size_before T B BL).
Notation size_at := (@size_at T B BL).

(** ** Chunked traversal
    A call of the callback on a range of a leaf is the list of the elements in it; the
    functions below return the ranges passed to the callback, in order. *)

(** for_each_chunk_visitor: operations.hpp:81-97. *)
Fixpoint chunks (v : nat) (p : pos T) : res (list (list T)) :=
  match v with
  | O =>
      n <- pnode p ;; xs <- leaf_of n ;; k <- count O p ;; ys <- rtakeN k xs ;; Ok [ys]
  | S l =>
      ps <- each l p ;; cs <- rmap (chunks l) ps ;; Ok (List.concat cs)
  end.

(** for_each_chunk_left_visitor: 117-135. *)
Fixpoint chunks_left (v : nat) (p : pos T) (last : N) : res (list (list T)) :=
  match v with
  | O =>
      n <- pnode p ;; xs <- leaf_of n ;; i <- index O p last ;;
      ys <- rtakeN (i + 1) xs ;; Ok [ys]
  | S l =>
      i <- index v p last ;;
      ps <- each_left l p i ;;
      cs <- rmap (chunks l) ps ;;
      ' (q, last') <- towards l p last i ;;
      ds <- chunks_left l q last' ;;
      Ok (List.concat cs ++ ds)
  end.

(** for_each_chunk_right_visitor: 137-155. *)
Fixpoint chunks_right (v : nat) (p : pos T) (first : N) : res (list (list T)) :=
  match v with
  | O =>
      n <- pnode p ;; xs <- leaf_of n ;; i <- index O p first ;; k <- count O p ;;
      ys <- rsliceN i k xs ;; Ok [ys]
  | S l =>
      i <- index v p first ;;
      ' (q, first') <- towards l p first i ;;
      ds <- chunks_right l q first' ;;
      ps <- each_right l p (i + 1) ;;
      cs <- rmap (chunks l) ps ;;
      Ok (ds ++ List.concat cs)
  end.

(** for_each_chunk_i_visitor: 157-208. *)
Fixpoint chunks_i (v : nat) (p : pos T) (first last : N) : res (list (list T)) :=
  match v with
  | O =>
      n <- pnode p ;; xs <- leaf_of n ;;
      if first <? last then
        f <- index O p first ;; e <- index O p (last - 1) ;;
        ys <- rsliceN f (e + 1) xs ;; Ok [ys]
      else Ok []
  | S l =>
      if first <? last then
        f <- index v p first ;; e <- index v p (last - 1) ;;
        if f =? e then
          ' (q, first') <- towards l p first f ;;
          match p with
          | PRel _ _ => sbh <- size_before v p f ;; chunks_i l q first' (last - sbh)
          | _ => chunks_i l q first' last
          end
        else if f <? e then
          ' (q, first') <- towards l p first f ;;
          a <- chunks_right l q first' ;;
          ps <- each_i l p (f + 1) e ;;
          m <- rmap (chunks l) ps ;;
          ' (q', last') <- towards l p (last - 1) e ;;
          b <- chunks_left l q' last' ;;
          Ok (a ++ List.concat m ++ b)
        else UB
      else Ok []
  end.

(** rrbtree::traverse: rrbtree.hpp:175-190 with for_each_chunk 258-262.  An absent tree
    part is make_empty_regular_pos, which has no children (position.hpp:34-65); an empty
    tail is make_empty_leaf_pos, whose count is 0 (67-90), here [PSub _ 0]. *)
Definition for_each_chunk (t : tree T) : res (list (list T)) :=
  toff <- tail_offset BL t ;;
  a <- (if 0 <? toff then
          p <- maybe_relaxed (S (lv t)) (root t) toff ;; chunks (S (lv t)) p
        else Ok []) ;;
  q <- mk_sub O (tail t) (size t - toff) ;;
  b <- chunks O q ;;
  Ok (a ++ b).
(** The ranged traversal: 192-212 with 264-268. *)
Definition for_each_chunk_i (t : tree T) (first last : N) : res (list (list T)) :=
  toff <- tail_offset BL t ;;
  a <- (if first <? toff then
          p <- maybe_relaxed (S (lv t)) (root t) toff ;;
          chunks_i (S (lv t)) p first (if last <? toff then last else toff)
        else Ok []) ;;
  b <- (if toff <? last then
          q <- mk_sub O (tail t) (size t - toff) ;;
          chunks_i O q (if toff <? first then first - toff else 0) (last - toff)
        else Ok []) ;;
  Ok (a ++ b).

(** rbtree::traverse: rbtree.hpp:153-182 with for_each_chunk 224-234. *)
Definition vfor_each_chunk (t : tree T) : res (list (list T)) :=
  let toff := vtail_offset BL t in
  a <- (if 0 <? toff then
          p <- mk_sub (S (lv t)) (root t) toff ;; chunks (S (lv t)) p
        else Ok []) ;;
  q <- mk_sub O (tail t) (size t - toff) ;;
  b <- chunks O q ;;
  Ok (a ++ b).
Definition vfor_each_chunk_i (t : tree T) (first last : N) : res (list (list T)) :=
  let toff := vtail_offset BL t in
  a <- (if first <? toff then
          p <- mk_sub (S (lv t)) (root t) toff ;;
          chunks_i (S (lv t)) p first (if last <? toff then last else toff)
        else Ok []) ;;
  b <- (if toff <? last then
          q <- mk_sub O (tail t) (size t - toff) ;;
          chunks_i O q (if toff <? first then first - toff else 0) (last - toff)
        else Ok []) ;;
  Ok (a ++ b).

(** ** Predicate traversal
    The callback has a state [St]; it is called on ranges until it returns false. *)
Section Pred.
Context {St : Type}.
Variable fn : St -> list T -> St * bool.

(** The loops of each_pred*: position.hpp:361-383 (each_pred_regular), 415-463,
    465-492, 494-525, 1192-1212, 1233-1251, 1270-1280, 1472-1495, 1497-1523, 1525-1547,
    1549-1575.  They visit the same children as each, each_i, each_left and each_right. *)
Fixpoint all_pos (f : St -> pos T -> res (St * bool)) (s : St) (ps : list (pos T))
  : res (St * bool) :=
  match ps with
  | [] => Ok (s, true)
  | p :: ps' =>
      ' (s', b) <- f s p ;;
      if b : bool then all_pos f s' ps' else Ok (s', false)
  end.
(** [a && b] of two visits. *)
Definition and_then (m : res (St * bool)) (k : St -> res (St * bool)) : res (St * bool) :=
  ' (s, b) <- m ;; if b : bool then k s else Ok (s, false).

(** for_each_chunk_p_visitor: operations.hpp:99-115. *)
Fixpoint chunks_p (v : nat) (s : St) (p : pos T) : res (St * bool) :=
  match v with
  | O =>
      n <- pnode p ;; xs <- leaf_of n ;; k <- count O p ;; ys <- rtakeN k xs ;; Ok (fn s ys)
  | S l => ps <- each l p ;; all_pos (chunks_p l) s ps
  end.
(** for_each_chunk_p_left_visitor: 210-229. *)
Fixpoint chunks_p_left (v : nat) (s : St) (p : pos T) (last : N) : res (St * bool) :=
  match v with
  | O =>
      n <- pnode p ;; xs <- leaf_of n ;; i <- index O p last ;;
      ys <- rtakeN (i + 1) xs ;; Ok (fn s ys)
  | S l =>
      i <- index v p last ;;
      ps <- each_left l p i ;;
      and_then (all_pos (chunks_p l) s ps) (fun s' =>
        ' (q, last') <- towards l p last i ;; chunks_p_left l s' q last')
  end.
(** for_each_chunk_p_right_visitor: 231-250. *)
Fixpoint chunks_p_right (v : nat) (s : St) (p : pos T) (first : N) : res (St * bool) :=
  match v with
  | O =>
      n <- pnode p ;; xs <- leaf_of n ;; i <- index O p first ;; k <- count O p ;;
      ys <- rsliceN i k xs ;; Ok (fn s ys)
  | S l =>
      i <- index v p first ;;
      ' (q, first') <- towards l p first i ;;
      and_then (chunks_p_right l s q first') (fun s' =>
        ps <- each_right l p (i + 1) ;; all_pos (chunks_p l) s' ps)
  end.
(** for_each_chunk_p_i_visitor: 252-316. *)
Fixpoint chunks_p_i (v : nat) (s : St) (p : pos T) (first last : N) : res (St * bool) :=
  match v with
  | O =>
      n <- pnode p ;; xs <- leaf_of n ;;
      if first <? last then
        f <- index O p first ;; e <- index O p (last - 1) ;;
        ys <- rsliceN f (e + 1) xs ;; Ok (fn s ys)
      else Ok (s, true)
  | S l =>
      if first <? last then
        f <- index v p first ;; e <- index v p (last - 1) ;;
        if f =? e then
          ' (q, first') <- towards l p first f ;;
          match p with
          | PRel _ _ => sbh <- size_before v p f ;; chunks_p_i l s q first' (last - sbh)
          | _ => chunks_p_i l s q first' last
          end
        else if f <? e then
          ' (q, first') <- towards l p first f ;;
          and_then (chunks_p_right l s q first') (fun s1 =>
            ps <- each_i l p (f + 1) e ;;
            and_then (all_pos (chunks_p l) s1 ps) (fun s2 =>
              ' (q', last') <- towards l p (last - 1) e ;; chunks_p_left l s2 q' last'))
        else UB
      else Ok (s, true)
  end.

(** rrbtree::traverse_p: rrbtree.hpp:214-223 with for_each_chunk_p 270-274. *)
Definition for_each_chunk_p (t : tree T) (s : St) : res (St * bool) :=
  toff <- tail_offset BL t ;;
  and_then
    (if 0 <? toff then
       p <- maybe_relaxed (S (lv t)) (root t) toff ;; chunks_p (S (lv t)) s p
     else Ok (s, true))
    (fun s' => q <- mk_sub O (tail t) (size t - toff) ;; chunks_p O s' q).
(** ranged: 225-247 with 276-281. *)
Definition for_each_chunk_p_i (t : tree T) (first last : N) (s : St) : res (St * bool) :=
  toff <- tail_offset BL t ;;
  and_then
    (if first <? toff then
       p <- maybe_relaxed (S (lv t)) (root t) toff ;;
       chunks_p_i (S (lv t)) s p first (if last <? toff then last else toff)
     else Ok (s, true))
    (fun s' =>
       if toff <? last then
         q <- mk_sub O (tail t) (size t - toff) ;;
         chunks_p_i O s' q (if toff <? first then first - toff else 0) (last - toff)
       else Ok (s', true)).
(** rbtree::traverse_p: rbtree.hpp:184-214 with for_each_chunk_p 236-247. *)
Definition vfor_each_chunk_p (t : tree T) (s : St) : res (St * bool) :=
  let toff := vtail_offset BL t in
  and_then
    (if 0 <? toff then
       p <- mk_sub (S (lv t)) (root t) toff ;; chunks_p (S (lv t)) s p
     else Ok (s, true))
    (fun s' => q <- mk_sub O (tail t) (size t - toff) ;; chunks_p O s' q).
Definition vfor_each_chunk_p_i (t : tree T) (first last : N) (s : St) : res (St * bool) :=
  let toff := vtail_offset BL t in
  and_then
    (if first <? toff then
       p <- mk_sub (S (lv t)) (root t) toff ;;
       chunks_p_i (S (lv t)) s p first (if last <? toff then last else toff)
     else Ok (s, true))
    (fun s' =>
       if toff <? last then
         q <- mk_sub O (tail t) (size t - toff) ;;
         chunks_p_i O s' q (if toff <? first then first - toff else 0) (last - toff)
       else Ok (s', true)).
End Pred.

(** ** Algorithms: algorithm.hpp
    Each runs a lambda on the chunks produced by for_each_chunk (full or ranged, of
    either container); [r] is that call. *)

(** accumulate: 122-165 with accumulate_move 99-115: the lambda updates [init]. *)
Definition accumulate {A} (r : res (list (list T))) (init : A) (op : A -> T -> A) : res A :=
  cs <- r ;; Ok (fold_left (fun acc c => fold_left op c acc) cs init).
(** for_each: 167-192; [s] is the state of the function object. *)
Definition for_each {A} (r : res (list (list T))) (s : A) (fn : A -> T -> A) : res A :=
  cs <- r ;; Ok (fold_left (fun st c => fold_left fn c st) cs s).
(** copy: 194-217: the elements written through the output iterator, in order. *)
Definition copy (r : res (list (list T))) : res (list T) :=
  cs <- r ;; Ok (fold_left (fun out c => out ++ c) cs []).
(** all_of: 219-240. *)
Definition all_of_fn (pr : T -> bool) (s : unit) (c : list T) : unit * bool :=
  (s, forallb pr c).
Definition all_of (t : tree T) (pr : T -> bool) : res bool :=
  ' (_, b) <- for_each_chunk_p (all_of_fn pr) t tt ;; Ok b.
Definition all_of_i (t : tree T) (first last : N) (pr : T -> bool) : res bool :=
  ' (_, b) <- for_each_chunk_p_i (all_of_fn pr) t first last tt ;; Ok b.
Definition vall_of (t : tree T) (pr : T -> bool) : res bool :=
  ' (_, b) <- vfor_each_chunk_p (all_of_fn pr) t tt ;; Ok b.
Definition vall_of_i (t : tree T) (first last : N) (pr : T -> bool) : res bool :=
  ' (_, b) <- vfor_each_chunk_p_i (all_of_fn pr) t first last tt ;; Ok b.

(** ** Iterators *)

(** region_for_visitor: operations.hpp:44-61: leaf, index in it, number of elements. *)
Fixpoint region (v : nat) (p : pos T) (idx : N) : res (node T * N * N) :=
  match v with
  | O => n <- pnode p ;; i <- index O p idx ;; k <- count O p ;; Ok (n, i, k)
  | S l => i <- index v p idx ;; ' (q, idx') <- towards l p idx i ;; region l q idx'
  end.
(** rrbtree::region_for: rrbtree.hpp:492-505: leaf, index of its first element, index
    past its last one. *)
Definition region_for (t : tree T) (idx : N) : res (node T * N * N) :=
  toff <- tail_offset BL t ;;
  if toff <=? idx then Ok (tail t, toff, size t)
  else
    p <- maybe_relaxed (S (lv t)) (root t) toff ;;
    ' (n, i, k) <- region (S (lv t)) p idx ;;
    if i <=? idx then Ok (n, idx - i, idx - i + k) else UB.

(** rrbtree_iterator: rrbtree_iterator.hpp:36-93.  The cached region; the initial
    region (null, ~0, ~0) is [None]: every index is below its start. *)
Record iter : Type := mkIter { it_i : N; it_curr : option (node T * N * N) }.
Definition it_begin (t : tree T) : iter := mkIter 0 None.
Definition it_end (t : tree T) : iter := mkIter (size t) None.
(** increment 56-61, decrement 63-68, advance 70-76; the asserts are UB. *)
Definition it_inc (t : tree T) (it : iter) : res iter :=
  if it_i it <? size t then Ok (mkIter (it_i it + 1) (it_curr it)) else UB.
Definition it_dec (it : iter) : res iter :=
  if 0 <? it_i it then Ok (mkIter (it_i it - 1) (it_curr it)) else UB.
Definition it_advance (t : tree T) (n : Z) (it : iter) : res iter :=
  let j := (Z.of_N (it_i it) + n)%Z in
  if (0 <=? j)%Z && (j <=? Z.of_N (size t))%Z then Ok (mkIter (Z.to_N j) (it_curr it)) else UB.
(** dereference 87-93: the element, and the iterator with its cache updated. *)
Definition it_deref (t : tree T) (it : iter) : res (T * iter) :=
  let stale := match it_curr it with
               | None => true
               | Some (_, f, e) => (it_i it <? f) || (e <=? it_i it)
               end in
  curr <- (if stale then region_for t (it_i it)
           else match it_curr it with Some c => Ok c | None => UB end) ;;
  let '(n, f, _) := curr in
  xs <- leaf_of n ;;
  x <- rnthN xs (it_i it - f) ;;
  Ok (x, mkIter (it_i it) (Some curr)).

(** array_for_visitor: operations.hpp:27-42, over visit_regular_descent: the leaf. *)
Fixpoint leaf_regular (v : nat) (n : node T) (idx : N) : res (node T) :=
  match v with
  | O => Ok n
  | S l =>
      cs <- inner_of n ;;
      c <- rnthN cs (N.land (N.shiftr idx (sh l)) (mask B)) ;;
      leaf_regular l c idx
  end.
(** rbtree::array_for: rbtree.hpp:361-364 with descend 216-222. *)
Definition varray_for (t : tree T) (idx : N) : res (node T) :=
  if vtail_offset BL t <=? idx then Ok (tail t)
  else if Nat.ltb (lv t) 6 then leaf_regular (S (lv t)) (root t) idx
  else UB.
(** rbtree_iterator: rbtree_iterator.hpp:30-94.  [None] is the initial base_ = ~0. *)
Record viter : Type := mkViter { vi_i : N; vi_curr : option (N * node T) }.
Definition vi_begin (t : tree T) : viter := mkViter 0 None.
Definition vi_inc (t : tree T) (it : viter) : res viter :=
  if vi_i it <? size t then Ok (mkViter (vi_i it + 1) (vi_curr it)) else UB.
Definition vi_dec (it : viter) : res viter :=
  if 0 <? vi_i it then Ok (mkViter (vi_i it - 1) (vi_curr it)) else UB.
Definition vi_advance (t : tree T) (n : Z) (it : viter) : res viter :=
  let j := (Z.of_N (vi_i it) + n)%Z in
  if (0 <=? j)%Z && (j <=? Z.of_N (size t))%Z then Ok (mkViter (Z.to_N j) (vi_curr it)) else UB.
Definition vi_deref (t : tree T) (it : viter) : res (T * viter) :=
  let base := N.ldiff (vi_i it) lmask in
  let stale := match vi_curr it with
               | None => true
               | Some (b, _) => negb (b =? base)
               end in
  n <- (if stale then varray_for t (vi_i it)
        else match vi_curr it with Some (_, n) => Ok n | None => UB end) ;;
  xs <- leaf_of n ;;
  x <- rnthN xs (N.land (vi_i it) lmask) ;;
  Ok (x, mkViter (vi_i it) (Some (base, n))).

(** ** Equality
    [eqT] is the user's comparison of elements; [peq] is the comparison of two node
    pointers. *)
Section Equals.
Variable eqT : T -> T -> bool.
Variable peq : node T -> node T -> bool.

(** std::equal over [n] elements. *)
Fixpoint equal_n (n : nat) (xs ys : list T) : res bool :=
  match n with
  | O => Ok true
  | S n' =>
      match xs, ys with
      | x :: xs', y :: ys' => if eqT x y then equal_n n' xs' ys' else Ok false
      | _, _ => UB
      end
  end.

(** equals_visitor::visit_regular(pos, other) and visit_leaf(pos, other):
    operations.hpp:439-455, with each_pred_zip: position.hpp:385-413, 1214-1231. *)
Fixpoint zip_pos (f : pos T -> node T -> res bool) (ps : list (pos T)) (ns : list (node T))
  : res bool :=
  match ps with
  | [] => Ok true
  | p :: ps' =>
      match ns with
      | [] => UB
      | n :: ns' => b <- f p n ;; if b : bool then zip_pos f ps' ns' else Ok false
      end
  end.
Fixpoint eq_node (v : nat) (p : pos T) (other : node T) : res bool :=
  n <- pnode p ;;
  if peq n other then Ok true
  else
    match v with
    | O =>
        xs <- leaf_of n ;; k <- count O p ;; ys <- leaf_of other ;;
        equal_n (N.to_nat k) xs ys
    | S l => ps <- each l p ;; ns <- inner_of other ;; zip_pos (eq_node l) ps ns
    end.

(** rbtree::equals: rbtree.hpp:249-260. *)
Definition vequals (a b : tree T) : res bool :=
  if negb (size a =? size b) then Ok false
  else if size a =? 0 then Ok true
  else
    r <- (if size a <=? lwidth then Ok true
          else p <- mk_sub (S (lv a)) (root a) (vtail_offset BL a) ;;
               eq_node (S (lv a)) p (root b)) ;;
    if r : bool then
      q <- mk_sub O (tail a) (size a - vtail_offset BL a) ;; eq_node O q (tail b)
    else Ok false.

(** nth_sub(idx) and nth_sub_leaf(idx): position.hpp:997-1024, 1376-1394, 1783-1801. *)
Definition nth_sub (l : nat) (p : pos T) (i : N) : res (pos T) :=
  match p with
  | PSub n _ =>
      cs <- inner_of n ;; c <- rnthN cs i ;; s <- size_at (S l) p i ;; k <- count (S l) p ;;
      if i + 1 <? k then Ok (PFull c) else mk_sub l c s
  | PFull n => cs <- inner_of n ;; c <- rnthN cs i ;; Ok (PFull c)
  | PRel n _ => cs <- inner_of n ;; c <- rnthN cs i ;; s <- size_at (S l) p i ;; child_pos l c s
  | _ => UB
  end.
(** first_sub_inner: 986-995, 1368-1374, 1773-1781. *)
Definition first_sub_inner (l : nat) (p : pos T) : res (pos T) :=
  match p with
  | PSub n s =>
      cs <- inner_of n ;; c <- rnthN cs 0 ;;
      if lwidth <=? s then Ok (PFull c) else mk_sub l c s
  | PFull n => cs <- inner_of n ;; c <- rnthN cs 0 ;; Ok (PFull c)
  | PRel n sz => cs <- inner_of n ;; c <- rnthN cs 0 ;; s <- rnthN sz 0 ;; maybe_relaxed l c s
  | _ => UB
  end.

(** The element of [t] at [idx], read through an iterator [first + idx]. *)
Definition read (t : tree T) (idx : N) : res T :=
  ' (n, f, _) <- region_for t idx ;; xs <- leaf_of n ;; rnthN xs (idx - f).
Fixpoint equal_iter (xs : list T) (t : tree T) (idx : N) : res bool :=
  match xs with
  | [] => Ok true
  | x :: xs' =>
      y <- read t idx ;;
      if eqT x y then equal_iter xs' t (idx + 1) else Ok false
  end.

(** equal_chunk_p: operations.hpp:359-373.  The state is the index of the iterator.  The
    test [f == &*iter] holds when the chunk is the leaf the iterator stands at the start
    of. *)
Fixpoint chunk_eq (v : nat) (t : tree T) (p : pos T) (idx : N) : res (N * bool) :=
  match v with
  | O =>
      n <- pnode p ;; xs <- leaf_of n ;; k <- count O p ;; ys <- rtakeN k xs ;;
      ' (m, f, _) <- region_for t idx ;;
      if peq n m && (f =? idx) then Ok (idx + k, true)
      else b <- equal_iter ys t idx ;; Ok (idx + k, b)
  | S l =>
      ps <- each l p ;;
      (fix go (ps : list (pos T)) (idx : N) : res (N * bool) :=
         match ps with
         | [] => Ok (idx, true)
         | q :: ps' =>
             ' (idx', b) <- chunk_eq l t q idx ;;
             if b : bool then go ps' idx' else Ok (idx', false)
         end) ps idx
  end.

(** [for (; j + 1 < cr && (sbr = posr.size_before(j)) < sbl; ++j);] 391-392. *)
Fixpoint skip_j (fuel : nat) (v : nat) (pr : pos T) (cr sbl j sbr : N) : res (N * N) :=
  if j + 1 <? cr then
    s <- size_before v pr j ;;
    if s <? sbl then
      match fuel with O => UB | S f => skip_j f v pr cr sbl (j + 1) s end
    else Ok (j, s)
  else Ok (j, sbr).

(** equals_visitor::visit_leaf(posl, posr, first, idx): 423-437. *)
Definition eq_leaf (t : tree T) (pl pr : pos T) (idx : N) : res bool :=
  nl <- pnode pl ;; nr <- pnode pr ;;
  if peq nl nr then Ok true
  else
    cl <- count O pl ;; cr <- count O pr ;;
    xs <- leaf_of nl ;; ys <- leaf_of nr ;;
    let mp := N.min cl cr in
    b <- equal_n (N.to_nat mp) xs ys ;;
    if b : bool then
      rest <- rsliceN mp cl xs ;; equal_iter rest t (idx + mp)
    else Ok false.

(** equals_visitor::visit_relaxed 375-403, visit_regular 405-421. *)
Fixpoint eq_pos (v : nat) (t : tree T) (pl pr : pos T) (idx : N) : res bool :=
  match v with
  | O => eq_leaf t pl pr idx
  | S l =>
      nl <- pnode pl ;; nr <- pnode pr ;;
      let relaxed :=
        if peq nl nr then Ok true
        else
          cl <- count v pl ;; cr <- count v pr ;;
          if cr =? 0 then UB
          else
            (fix go (n : nat) (i j sbr : N) : res bool :=
               match n with
               | O => Ok true
               | S n' =>
                   sbl <- size_before v pl i ;;
                   ' (j', sbr') <- skip_j (N.to_nat cr) v pr cr sbl j sbr ;;
                   b <- (if sbl =? sbr' then
                           qr <- nth_sub l pr j' ;; ql <- nth_sub l pl i ;;
                           eq_pos l t ql qr (idx + sbl)
                         else
                           ql <- nth_sub l pl i ;;
                           ' (_, b) <- chunk_eq l t ql (idx + sbl) ;; Ok b) ;;
                   if b : bool then go n' (i + 1) j' sbr' else Ok false
               end) (N.to_nat cl) 0 0 0 in
      match pl, pr with
      | PRel _ _, _ | _, PRel _ _ => relaxed
      | _, _ =>
          cl <- count v pl ;; cr <- count v pr ;;
          if cr <=? cl then eq_node v pl nr else eq_node v pr nl
      end
  end.

(** equals_visitor::rrb: 337-357: descend in the taller tree. *)
Fixpoint eq_rrb (v : nat) (t : tree T) (pr : pos T) (rootl : node T) (ll : nat) (sizel : N)
  : res bool :=
  if Nat.eqb v (S ll) then
    pl <- maybe_relaxed v rootl sizel ;; eq_pos v t pl pr 0
  else
    match v with
    | S l => q <- first_sub_inner l pr ;; eq_rrb l t q rootl ll sizel
    | O => UB
    end.

(** rrbtree::equals: rrbtree.hpp:283-331. *)
Definition equals (a b : tree T) : res bool :=
  if negb (size a =? size b) then Ok false
  else if size a =? 0 then Ok true
  else
    ta <- tail_offset BL a ;;
    tb <- tail_offset BL b ;;
    r <- (if (0 <? ta) && (0 <? tb) then
            if Nat.leb (lv a) (lv b) then
              p <- maybe_relaxed (S (lv b)) (root b) tb ;;
              eq_rrb (S (lv b)) b p (root a) (lv a) ta
            else
              p <- maybe_relaxed (S (lv a)) (root a) ta ;;
              eq_rrb (S (lv a)) a p (root b) (lv b) tb
          else Ok true) ;;
    if r : bool then
      xs <- leaf_of (tail a) ;;
      ys <- rtakeN (size a - ta) xs ;;
      if ta =? tb then
        q <- mk_sub O (tail a) (size a - ta) ;; eq_node O q (tail b)
      else if tb <? ta then
        zs <- leaf_of (tail b) ;;
        equal_n (length ys) ys (dropN (ta - tb) zs)
      else equal_iter ys b ta
    else Ok false.
End Equals.

End View.

(** max_size: rbtree.hpp:38-42 and rrbtree.hpp:43-48 (64-bit size_t), with ipow
    util.hpp:199-206. *)
Fixpoint ipow64 (n : N) (e : nat) : N :=
  match e with O => 1 | S e' => (ipow64 n e' * n) mod 2 ^ 64 end.
Definition vmax_size (B BL : N) : N :=
  (N.shiftl 1 BL mod 2 ^ 64 * ipow64 (N.shiftl 1 B mod 2 ^ 64) (N.to_nat ((64 - BL) / B)))
    mod 2 ^ 64.
Definition max_size (B BL : N) : N :=
  ((N.shiftl 1 BL mod 2 ^ 64 - N.min BL 2) *
   ipow64 (N.shiftl 1 B mod 2 ^ 64 - 2) (N.to_nat ((64 - BL) / B))) mod 2 ^ 64.
