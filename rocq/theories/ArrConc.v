(** Arrays and array transients of several threads: the functions of with_capacity.hpp with one
    access to the memory per step.

    Source: immer/detail/arrays/{node,with_capacity}.hpp, immer/array.hpp,
    immer/array_transient.hpp, as in [Array], with the memory of [RcHeap] and the threads of
    [Conc].  Simplifications: the elements of a node are read or written by one step; the static
    of empty() has been made before the threads start; elements do not throw. *)
From Coq Require Import List NArith Arith Bool.
Set Warnings "-notation-overridden".
From Verif Require Import Common NList Array RcHeap Conc ArraySpec ArrConcSpec.
Import ListNotations.
Local Open Scope N_scope.

Section ArrConc.
Context {T : Type}.
(** As in Array.v. *)
Variable trivial : bool.
Variables esz off nodesz limit : N.
Variable teq : T -> T -> bool.
(** The static of with_capacity::empty(): 34-38. *)
Variable e : handle.
Notation slots := (list (option T)).
Notation prog := (prog slots).
Notation hvars := (list (option handle)).

Definition obind {A C} (p : prog (option A)) (k : A -> prog (option C)) : prog (option C) :=
  o <-- p ;; match o with Some x => k x | None => Done None end.

(** node.hpp:73-76, make_n ([None] is std::bad_alloc). *)
Definition c_make (n : N) : prog (option nat) :=
  if limit <? sizeof_n esz off nodesz n then Done None
  else a <-- mk (repeat None (N.to_nat (room esz off nodesz n))) [] ;; Done (Some a).
(** detail::uninitialized_copy and std::uninitialized_fill_n into a new node. *)
Definition c_put (a : nat) (xs : list T) : prog unit :=
  c <-- ld a ;; sl <-- plift (construct_all trivial (c_body c) 0 xs) ;; wr a sl [].
(** node.hpp:85-97, fill_n, and 99-114, copy_n from a range. *)
Definition c_fill (n : N) (xs : list T) : prog (option nat) :=
  obind (c_make n) (fun a => _ <-- c_put a xs ;; Done (Some a)).
(** node.hpp:116-119, copy_n from a node, and 121-132, copy_e. *)
Definition c_copy (n : N) (src : nat) (count : N) : prog (option nat) :=
  obind (c_make n) (fun a =>
    s <-- ld src ;; xs <-- plift (read_n (N.to_nat count) (c_body s)) ;;
    _ <-- c_put a xs ;; Done (Some a)).
(** node.hpp:67-71, delete_n: the elements go, then the block; no element may be left. *)
Definition c_delete (a : nat) (sz : N) : prog unit :=
  c <-- ld a ;;
  sl <-- plift (destroy_n trivial (c_body c) 0 (N.to_nat sz)) ;;
  _ <-- wr a sl [] ;;
  if trivial || forallb is_raw sl then fr a else Fail.

(** with_capacity.hpp: dec 92-97. *)
Definition c_dec (h : handle) : prog unit :=
  last <-- dn (ptr h) ;; if last : bool then c_delete (ptr h) (hsize h) else Done tt.
(** Constructing or assigning one element of a node. *)
Definition c_construct (a : nat) (i : N) (x : T) : prog unit :=
  c <-- ld a ;; sl <-- plift (construct trivial (c_body c) i x) ;; wr a sl [].
Definition c_assign (a : nat) (i : N) (f : T -> T) : prog unit :=
  c <-- ld a ;; x <-- plift (read (c_body c) i) ;;
  sl <-- plift (assign (c_body c) i (f x)) ;; wr a sl [].

(** push_back: 187-199. *)
Definition c_push (h : handle) (x : T) : prog (option handle) :=
  let cap := recommend_up (w64 (hsize h + 1)) (hcap h) in
  obind (c_copy cap (ptr h) (hsize h)) (fun p =>
    _ <-- c_construct p (hsize h) x ;; Done (Some (mkHandle p (w64 (hsize h + 1)) cap))).
(** [*this = {p, s, c}]: 74-78, 84. *)
Definition c_replace (h h' : handle) : prog (option handle) :=
  _ <-- c_dec h ;; Done (Some h').
(** push_back_mut: 201-218. *)
Definition c_push_mut (h : handle) (x : T) : prog (option handle) :=
  m <-- uq (ptr h) ;;
  if m && (hsize h <? hcap h) then
    _ <-- c_construct (ptr h) (hsize h) x ;;
    Done (Some (mkHandle (ptr h) (w64 (hsize h + 1)) (hcap h)))
  else obind (c_push h x) (c_replace h).
(** update: 254-268; assoc (220-232) is the case of a constant function. *)
Definition c_update (h : handle) (i : N) (f : T -> T) : prog (option handle) :=
  obind (c_copy (hcap h) (ptr h) (hsize h)) (fun p =>
    _ <-- c_assign p i f ;; Done (Some (mkHandle p (hsize h) (hcap h)))).
(** update_mut: 270-290, assoc_mut: 234-250. *)
Definition c_update_mut (h : handle) (i : N) (f : T -> T) : prog (option handle) :=
  m <-- uq (ptr h) ;;
  if m : bool then _ <-- c_assign (ptr h) i f ;; Done (Some h)
  else obind (c_update h i f) (c_replace h).
(** take: 292-298. *)
Definition c_take (h : handle) (sz : N) : prog (option handle) :=
  let cap := recommend_down sz (hcap h) in
  obind (c_copy cap (ptr h) sz) (fun p => Done (Some (mkHandle p sz cap))).
(** take_mut: 300-311. *)
Definition c_take_mut (h : handle) (sz : N) : prog (option handle) :=
  m <-- uq (ptr h) ;;
  if m : bool then
    c <-- ld (ptr h) ;;
    sl <-- plift (destroy_n trivial (c_body c) (hsize h) (N.to_nat (w64 (hsize h + 2^64 - sz)))) ;;
    _ <-- wr (ptr h) sl [] ;;
    Done (Some (mkHandle (ptr h) sz (hcap h)))
  else obind (c_take h sz) (c_replace h).
(** from_range: 122-134, from_fill: 143-146. *)
Definition c_from (xs : list T) : prog (option handle) :=
  obind (c_fill (lenN xs) xs) (fun p => Done (Some (mkHandle p (lenN xs) (lenN xs)))).
(** get_check: 162-167 ([None] is std::out_of_range). *)
Definition c_get_check (h : handle) (i : N) : prog (option T) :=
  if hsize h <=? i then Done None
  else c <-- ld (ptr h) ;; x <-- plift (read (c_body c) i) ;; Done (Some x).
(** equals: 169-174. *)
Definition c_equals (h1 h2 : handle) : prog bool :=
  if Nat.eqb (ptr h1) (ptr h2) then Done true
  else if hsize h1 =? hsize h2 then
    c1 <-- ld (ptr h1) ;; c2 <-- ld (ptr h2) ;;
    plift (equal_n teq (N.to_nat (hsize h1)) (c_body c1) (c_body c2))
  else Done false.

(** The variable [i], which must be alive. *)
Definition c_var (l : hvars) (i : nat) : prog handle :=
  match nth_error l i with Some (Some h) => Done h | _ => Fail end.
(** The copy constructor: 46-50. *)
Definition c_copied (h : handle) : prog (option handle) := _ <-- up (ptr h) ;; Done (Some h).

Definition c_mod (l : hvars) (o : op T) : prog (hvars * aobs T) :=
  let fresh p := r <-- p ;; match r with
    | Some h => Done (l ++ [Some h], ODone)
    | None => Done (l, OThrew)
    end in
  let inplace i p := r <-- p ;; match r with
    | Some h => Done (update_at i (Some h) l, ODone)
    | None => Done (l, OThrew)
    end in
  match o with
  | New => fresh (c_copied e)
  | FromList [] => fresh (c_copied e)
  | FromList xs => fresh (c_from xs)
  | Fill n x =>
      fresh (obind (c_fill n (repeat x (N.to_nat n))) (fun p => Done (Some (mkHandle p n n))))
  | Copy i => h <-- c_var l i ;; fresh (c_copied h)
  | Move i =>
      (* 58-62: start as a copy of empty() and swap *)
      h <-- c_var l i ;; _ <-- up (ptr e) ;; Done (update_at i (Some e) l ++ [Some h], ODone)
  | Assign i j =>
      (* 64-69: copy, swap, and the old contents die with [next] *)
      hi <-- c_var l i ;; hj <-- c_var l j ;;
      _ <-- up (ptr hj) ;; _ <-- c_dec hi ;; Done (update_at i (Some hj) l, ODone)
  | MoveAssign i j =>
      (* 71-75: swap *)
      hi <-- c_var l i ;; hj <-- c_var l j ;;
      Done (update_at j (Some hi) (update_at i (Some hj) l), ODone)
  | Destroy i => h <-- c_var l i ;; _ <-- c_dec h ;; Done (update_at i None l, ODone)
  | PushBack i x => h <-- c_var l i ;; fresh (c_push h x)
  | PushBackMut i x => h <-- c_var l i ;; inplace i (c_push_mut h x)
  | Update i k f => h <-- c_var l i ;; fresh (c_update h k f)
  | UpdateMut i k f => h <-- c_var l i ;; inplace i (c_update_mut h k f)
  | Take i n => h <-- c_var l i ;; fresh (c_take h n)
  | TakeMut i n => h <-- c_var l i ;; inplace i (c_take_mut h n)
  end.

(** One statement, and a thread that starts with the variables [l]. *)
Definition c_step (l : hvars) (o : aop T) : prog (hvars * aobs T) :=
  match o with
  | AMod o => c_mod l o
  | AAt i k => h <-- c_var l i ;; r <-- c_get_check h k ;;
      Done (l, match r with Some x => OAt x | None => OThrew end)
  | AEq i j => h <-- c_var l i ;; h' <-- c_var l j ;; b <-- c_equals h h' ;; Done (l, OEq b)
  | ASize i => h <-- c_var l i ;; Done (l, OSize (hsize h))
  end.
Fixpoint c_thread (l : hvars) (c : client T) : prog (hvars * list (aobs T)) :=
  match c with
  | Stop => Done (l, [])
  | Do o k =>
      ' (l', x) <-- c_step l o ;;
      ' (l'', xs) <-- c_thread l' (k x) ;;
      Done (l'', x :: xs)
  end.

(** The memory once the static of empty() has been made, and that static. *)
Definition c_start : heap slots := [Some (mkCell 1 (repeat None (N.to_nat (room esz off nodesz 1))) [])].
End ArrConc.
Definition c_empty : handle := mkHandle 0%nat 0 1.
