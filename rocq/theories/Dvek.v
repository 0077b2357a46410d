(** dvektor: the experimental vector with a display.

    Source: immer/experimental/detail/dvektor_impl.hpp, immer/experimental/dvektor.hpp.  A version
    has a focus and, for every level, a pointer to the node on the path to the focus (the display).
    Nodes are blocks of a memory, so versions share them and writing to one is visible in all that
    share it.  Simplifications: blocks are not freed (the counts of intrusive_ptr are not
    modelled), sizes are unbounded numbers, a slot of a leaf that no element was stored in has the
    value [dflt] of T's default constructor, functions given to update are pure. *)
From Coq Require Import List Arith Bool.
From Verif Require Import Common DvekSpec.
Import ListNotations.

Section Dvek.
Context {T : Type}.
(** B: the number of bits of an index that each level takes; max_depth<B> (40-42), the length of
    the display. *)
Variables B maxd : nat.
Variable dflt : T.

(** node (55-139): a leaf or an inner node; pointers may be null. *)
Inductive dnode : Type := Leaf (xs : list T) | Inner (cs : list (option nat)).
Definition dheap : Type := list dnode.
Definition display : Type := list (option nat).

(** (index >> (B * k)) & mask<B>. *)
Definition digit (k i : nat) : nat := (i / 2 ^ (B * k)) mod 2 ^ B.
(** fast_log2(xr) / B: 28-31. *)
Definition level (xr : nat) : nat := Nat.log2 xr / B.

(** node::inner and node::leaf (107-138): the kind is asserted. *)
Definition inner (h : dheap) (p : nat) : res (list (option nat)) :=
  match nth_error h p with Some (Inner cs) => Ok cs | _ => UB end.
Definition leaf (h : dheap) (p : nat) : res (list T) :=
  match nth_error h p with Some (Leaf xs) => Ok xs | _ => UB end.
(** intrusive_ptr::operator->: null may not be dereferenced. *)
Definition deref (o : option nat) : res nat := match o with Some p => Ok p | None => UB end.
(** Reading and writing display[i], which has max_depth<B> elements. *)
Definition dget (d : display) (i : nat) : res (option nat) := rnth d i.
Definition dset (d : display) (i : nat) (o : option nat) : res display :=
  if i <? length d then Ok (update_at i o d) else UB.

(** make_node: 141-145. *)
Definition make_node (h : dheap) (n : dnode) : nat * dheap := (length h, h ++ [n]).
(** Writing a slot of a node. *)
Definition set_slot (h : dheap) (p k : nat) (o : option nat) : res dheap :=
  cs <- inner h p ;;
  if k <? length cs then Ok (update_at p (Inner (update_at k o cs)) h) else UB.
Definition set_elem (h : dheap) (p k : nat) (f : T -> T) : res dheap :=
  xs <- leaf h p ;; x <- rnth xs k ;; Ok (update_at p (Leaf (update_at k (f x) xs)) h).

(** ref::get_elem, 164-174: the loop goes down from level [k], with shift = k * B. *)
Fixpoint walk (h : dheap) (k p i : nat) : res T :=
  match k with
  | O => xs <- leaf h p ;; rnth xs (digit 0 i)
  | S k' => cs <- inner h p ;; o <- rnth cs (digit k i) ;; q <- deref o ;; walk h k' q i
  end.
Definition get_elem (h : dheap) (d : display) (i xr : nat) : res T :=
  let k := level xr in o <- dget d k ;; p <- deref o ;; walk h k p i.

(** copy_of_inner 192-195, copy_of_leaf 197-200. *)
Definition copy_of_inner (h : dheap) (o : option nat) : res (nat * dheap) :=
  p <- deref o ;; cs <- inner h p ;; Ok (make_node h (Inner cs)).
Definition copy_of_leaf (h : dheap) (o : option nat) : res (nat * dheap) :=
  p <- deref o ;; xs <- leaf h p ;; Ok (make_node h (Leaf xs)).
(** null_slot_and_copy_inner 176-182, null_slot_and_copy_leaf 184-190. *)
Definition null_slot_and_copy_inner (h : dheap) (o : option nat) (idx : nat) : res (nat * dheap) :=
  p <- deref o ;; cs <- inner h p ;; x <- rnth cs idx ;;
  h1 <- set_slot h p idx None ;; copy_of_inner h1 x.
Definition null_slot_and_copy_leaf (h : dheap) (o : option nat) (idx : nat) : res (nat * dheap) :=
  p <- deref o ;; cs <- inner h p ;; x <- rnth cs idx ;;
  h1 <- set_slot h p idx None ;; copy_of_leaf h1 x.

(** The loop of stabilize (202-210) and the first loop of goto_pos_writable_from_dirty (244-249):
    [n] levels from level [i] on. *)
Fixpoint link (index n i : nat) (d : display) (h : dheap) : res (display * dheap) :=
  match n with
  | O => Ok (d, h)
  | S n' =>
      o <- dget d i ;; ' (q, h1) <- copy_of_inner h o ;; d1 <- dset d i (Some q) ;;
      below <- dget d1 (i - 1) ;; h2 <- set_slot h1 q (digit i index) below ;;
      link index n' (S i) d1 h2
  end.
Definition stabilize (depth index : nat) (d : display) (h : dheap) : res (display * dheap) :=
  link index (depth - 1) 1 d h.

(** 212-232; beyond the first case it is IMMER_UNREACHABLE (221). *)
Definition goto_pos_writable_from_clean (depth : nat) (d : display) (h : dheap) : res (display * dheap) :=
  if depth =? 1 then
    o <- dget d 0 ;; ' (q, h1) <- copy_of_leaf h o ;; d1 <- dset d 0 (Some q) ;; Ok (d1, h1)
  else UB.
(** The second loop of goto_pos_writable_from_dirty: 250-254. *)
Fixpoint descend (index i : nat) (d : display) (h : dheap) : res (display * dheap) :=
  match i with
  | O => Ok (d, h)
  | S i' =>
      o <- dget d (S i) ;; ' (q, h1) <- null_slot_and_copy_inner h o (digit (S i) index) ;;
      d1 <- dset d i (Some q) ;; descend index i' d1 h1
  end.
(** 234-258. *)
Definition goto_pos_writable_from_dirty (old new xr : nat) (d : display) (h : dheap) : res (display * dheap) :=
  if xr <? 2 ^ B then
    o <- dget d 0 ;; ' (q, h1) <- copy_of_leaf h o ;; d1 <- dset d 0 (Some q) ;; Ok (d1, h1)
  else
    let k := level xr in
    ' (d1, h1) <- link old k 1 d h ;;
    ' (d2, h2) <- descend new (k - 1) d1 h1 ;;
    o <- dget d2 1 ;; ' (q, h3) <- null_slot_and_copy_leaf h2 o (digit 1 new) ;;
    d3 <- dset d2 0 (Some q) ;; Ok (d3, h3).

(** The loop of goto_fresh_pos_writable_from_clean: 273-278.  [slot] is
    (new_index >> shift) & mask<B>; shift is that of the first level and does not change in the
    loop. *)
Fixpoint fresh_path (slot i : nat) (d : display) (h : dheap) : res (display * dheap) :=
  match i with
  | O => Ok (d, h)
  | S i' =>
      o <- dget d (S i) ;; p <- deref o ;; cs <- inner h p ;; x <- rnth cs slot ;;
      ' (q, h1) <- match x with
                   | Some x => Ok (x, h)
                   | None => Ok (make_node h (Inner (repeat None (2 ^ B))))
                   end ;;
      d1 <- dset d i (Some q) ;; fresh_path slot i' d1 h1
  end.
(** 260-281. *)
Definition goto_fresh_pos_writable_from_clean (old new xr depth : nat) (d : display) (h : dheap)
  : res (nat * display * dheap) :=
  let k := level xr in
  if 0 <? k then
    ' (depth1, d1, h1) <-
      (if k =? depth then
         let ' (q, h1) := make_node h (Inner (repeat None (2 ^ B))) in
         d1 <- dset d k (Some q) ;; below <- dget d1 (k - 1) ;;
         h2 <- set_slot h1 q (digit k old) below ;; Ok (S depth, d1, h2)
       else Ok (depth, d, h)) ;;
    ' (d2, h2) <- fresh_path (digit k new) (k - 1) d1 h1 ;;
    let ' (q, h3) := make_node h2 (Leaf (repeat dflt (2 ^ B))) in
    d3 <- dset d2 0 (Some q) ;; Ok (depth1, d3, h3)
  else Ok (depth, d, h).
(** 283-289. *)
Definition goto_fresh_pos_writable_from_dirty (old new xr depth : nat) (d : display) (h : dheap)
  : res (nat * display * dheap) :=
  ' (d1, h1) <- stabilize depth old d h ;; goto_fresh_pos_writable_from_clean old new xr depth d1 h1.

(** impl (318-329) with its ref (148-156). *)
Record impl := mkImpl { size : nat; focus : nat; dirty : bool; depth : nat; disp : display }.
(** 405-406. *)
Definition empty : impl := mkImpl 0 0 false 1 (repeat None maxd).

(** 337-347. *)
Definition goto_pos_writable (s : impl) (old new xr : nat) (h : dheap) : res (impl * dheap) :=
  ' (d, h1) <- (if dirty s then goto_pos_writable_from_dirty old new xr (disp s) h
                else goto_pos_writable_from_clean (depth s) (disp s) h) ;;
  Ok (mkImpl (size s) (focus s) true (depth s) d, h1).
(** 349-359. *)
Definition goto_fresh_pos_writable (s : impl) (old new xr : nat) (h : dheap) : res (impl * dheap) :=
  ' (dp, d, h1) <- (if dirty s then goto_fresh_pos_writable_from_dirty old new xr (depth s) (disp s) h
                    else goto_fresh_pos_writable_from_clean old new xr (depth s) (disp s) h) ;;
  Ok (mkImpl (size s) (focus s) true dp d, h1).
(** s.p.display[0]->leaf()[k] = f(...). *)
Definition write (s : impl) (k : nat) (f : T -> T) (h : dheap) : res (impl * dheap) :=
  o <- dget (disp s) 0 ;; p <- deref o ;; h1 <- set_elem h p k f ;; Ok (s, h1).
(** push_back: 361-382. *)
Definition push_back (s : impl) (x : T) (h : dheap) : res (impl * dheap) :=
  if size s =? 0 then
    let ' (q, h1) := make_node h (Leaf (x :: repeat dflt (2 ^ B - 1))) in
    d <- dset (repeat None maxd) 0 (Some q) ;; Ok (mkImpl 1 0 false 1 d, h1)
  else
    let block := size s / 2 ^ B * 2 ^ B in
    let lo := size s mod 2 ^ B in
    let s0 := mkImpl (size s + 1) block (dirty s) (depth s) (disp s) in
    ' (s1, h1) <- (if size s =? block then goto_fresh_pos_writable s0 (focus s) block (Nat.lxor (focus s) block) h
                   else goto_pos_writable s0 (focus s) block (Nat.lxor (focus s) block) h) ;;
    write s1 lo (fun _ => x) h1.
(** get: 384-387. *)
Definition get (s : impl) (i : nat) (h : dheap) : res T := get_elem h (disp s) i (Nat.lxor i (focus s)).
(** update: 389-397; assoc (399-402) is the case of a constant function. *)
Definition update (s : impl) (i : nat) (f : T -> T) (h : dheap) : res (impl * dheap) :=
  let s0 := mkImpl (size s) i (dirty s) (depth s) (disp s) in
  ' (s1, h1) <- goto_pos_writable s0 (focus s) i (Nat.lxor (focus s) i) h ;;
  write s1 (i mod 2 ^ B) f h1.

(** Programs: every statement makes a new version from an old one (dvektor.hpp:44-60). *)
Definition dstep (vs : list impl) (o : dop T) (h : dheap) : res (list impl * dheap) :=
  match o with
  | DPush v x => s <- rnth vs v ;; ' (s', h') <- push_back s x h ;; Ok (vs ++ [s'], h')
  | DUpdate v i f => s <- rnth vs v ;; ' (s', h') <- update s i f h ;; Ok (vs ++ [s'], h')
  end.
Fixpoint drun (vs : list impl) (os : list (dop T)) (h : dheap) : res (list impl * dheap) :=
  match os with
  | [] => Ok (vs, h)
  | o :: os' => ' (vs1, h1) <- dstep vs o h ;; drun vs1 os' h1
  end.

(** *** Iterators *)
(** iterator (408-500): the display of its own, the position, the start of the block it is in; the
    pointer into the leaf display[0] is its offset, [curr]. *)
Record iter := mkIter { it_disp : display; it_i : nat; it_base : nat; it_curr : nat }.
(** goto_pos: 303-314. *)
Fixpoint goto_pos (index k : nat) (d : display) (h : dheap) : res display :=
  match k with
  | O => Ok d
  | S k' =>
      o <- dget d k ;; p <- deref o ;; cs <- inner h p ;; x <- rnth cs (digit k index) ;;
      d1 <- dset d k' x ;; goto_pos index k' d1 h
  end.
(** goto_next_block_start, 291-301: below the first level the slots 0. *)
Fixpoint first_path (k : nat) (d : display) (h : dheap) : res display :=
  match k with
  | O => Ok d
  | S k' =>
      o <- dget d k ;; p <- deref o ;; cs <- inner h p ;; x <- rnth cs 0 ;;
      d1 <- dset d k' x ;; first_path k' d1 h
  end.
Definition goto_next_block_start (index xr : nat) (d : display) (h : dheap) : res display :=
  match level xr with
  | O => Ok d
  | S k' as k =>
      o <- dget d k ;; p <- deref o ;; cs <- inner h p ;; x <- rnth cs (digit k index) ;;
      d1 <- dset d k' x ;; first_path k' d1 h
  end.
(** p_.display[0]->leaf(): needed wherever curr_ is set. *)
Definition at_leaf (d : display) (h : dheap) : res unit :=
  o <- dget d 0 ;; p <- deref o ;; xs <- leaf h p ;; Ok tt.
Definition stable (s : impl) (h : dheap) : res (display * dheap) :=
  if dirty s then stabilize (depth s) (focus s) (disp s) h else Ok (disp s, h).
(** begin: 420-429. *)
Definition begin (s : impl) (h : dheap) : res (iter * dheap) :=
  ' (d, h1) <- stable s h ;;
  d1 <- goto_pos 0 (level (Nat.lxor 0 (focus s))) d h1 ;;
  _ <- at_leaf d1 h1 ;; Ok (mkIter d1 0 0 0, h1).
(** end, 431-440: only for sizes above 0, as (size - 1) wraps for 0. *)
Definition end_ (s : impl) (h : dheap) : res (iter * dheap) :=
  if size s =? 0 then UB else
  let base := (size s - 1) / 2 ^ B * 2 ^ B in
  ' (d, h1) <- stable s h ;;
  d1 <- goto_pos base (level (Nat.lxor base (focus s))) d h1 ;;
  _ <- at_leaf d1 h1 ;; Ok (mkIter d1 (size s) base (size s - base), h1).
(** increment: 451-462. *)
Definition increment (t : iter) (h : dheap) : res iter :=
  let i := it_i t + 1 in
  if i - it_base t <? 2 ^ B then Ok (mkIter (it_disp t) i (it_base t) (it_curr t + 1))
  else
    let nb := it_base t + 2 ^ B in
    d <- goto_next_block_start nb (Nat.lxor (it_base t) nb) (it_disp t) h ;;
    _ <- at_leaf d h ;; Ok (mkIter d i nb 0).
(** decrement, 464-476: i_ > 0 is asserted. *)
Definition decrement (t : iter) (h : dheap) : res iter :=
  if it_i t =? 0 then UB else
  let i := it_i t - 1 in
  if it_base t <=? i then Ok (mkIter (it_disp t) i (it_base t) (it_curr t - 1))
  else
    let nb := it_base t - 2 ^ B in
    d <- goto_pos nb (level (Nat.lxor (it_base t) nb)) (it_disp t) h ;;
    _ <- at_leaf d h ;; Ok (mkIter d i nb (2 ^ B - 1)).
(** advance, 478-489, to position [i]: i_ <= base_ && i_ - base_ < branches<B> is only true for
    i_ = base_, as the difference wraps otherwise. *)
Definition advance (t : iter) (i : nat) (h : dheap) : res iter :=
  if i =? it_base t then Ok (mkIter (it_disp t) i (it_base t) (it_curr t + i - it_i t))
  else
    let nb := i / 2 ^ B * 2 ^ B in
    d <- goto_pos nb (level (Nat.lxor (it_base t) nb)) (it_disp t) h ;;
    _ <- at_leaf d h ;; Ok (mkIter d i nb (i - nb)).
Definition move1 (t : iter) (m : imove) (h : dheap) : res iter :=
  match m with Fwd => increment t h | Back => decrement t h | Jump i => advance t i h end.
Fixpoint moves (t : iter) (ms : list imove) (h : dheap) : res iter :=
  match ms with [] => Ok t | m :: ms' => t' <- move1 t m h ;; moves t' ms' h end.
(** dereference: 499. *)
Definition deref_it (t : iter) (h : dheap) : res T :=
  o <- dget (it_disp t) 0 ;; p <- deref o ;; xs <- leaf h p ;; rnth xs (it_curr t).
(** A loop over the elements: for (it = begin; it != end; ++it) use( *it ); [fuel] bounds the
    number of rounds. *)
Fixpoint visit (fuel n : nat) (t : iter) (h : dheap) : res (list T) :=
  if it_i t =? n then Ok []
  else match fuel with
       | O => UB
       | S fuel' =>
           x <- deref_it t h ;; t' <- increment t h ;; xs <- visit fuel' n t' h ;; Ok (x :: xs)
       end.
Definition elements (s : impl) (h : dheap) : res (list T) :=
  ' (b, h1) <- begin s h ;; ' (e, h2) <- end_ s h1 ;; visit (size s) (it_i e) b h2.
End Dvek.
Arguments dnode T : clear implicits.
Arguments dheap T : clear implicits.
