(** Model of immer::array and immer::array_transient over the memory they use:
    immer/detail/arrays/{node,with_capacity}.hpp, immer/array.hpp,
    immer/array_transient.hpp, with reference counting (the default memory policy, for
    which both classes hold a with_capacity: array.hpp:45-49).

    Memory is a map from addresses to cells; a cell has a reference count and a row of
    slots, each either raw memory or a constructed element.  Outcomes: [UB] stands for
    undefined behaviour and also for a broken element lifetime (constructing over a live
    element, deallocating a live element); [Ok None] is an exception (std::bad_alloc) that
    leaves the program state as it was; [Ok (Some _)] is a normal return.

    Not modelled here: exceptions of the element type (see Lifetime.v), threads.  A moved-out
    element is a value like any other. *)
From Coq Require Import List NArith Arith Bool.
From Verif Require Import Common NList.
Import ListNotations.
Local Open Scope N_scope.

Notation "x <~ m ;; k" := (rbind m (fun o => match o with Some x => k | None => Ok None end))
  (at level 61, m at next level, right associativity).
Notation "' p <~ m ;; k" :=
  (rbind m (fun o => match o with Some x => match x with p => k end | None => Ok None end))
  (at level 61, p pattern, m at next level, right associativity).

Section Array.
Context {T : Type}.
(** Is T trivially destructible?  (detail::destroy_n does nothing then: util.hpp:71-98.) *)
Variable trivial : bool.
(** sizeof(T), the offset of the buffer in a node, sizeof(node), and the largest request
    the heap can satisfy. *)
Variables esz off nodesz limit : N.

Definition addr := nat.
Record cell : Type := mkCell { rc : N; slots : list (option T) }.
(** [copied] counts the elements copied by copy_n (a ghost, for C31). *)
Record world : Type := mkWorld { heap : addr -> option cell; next : addr; copied : N }.

Definition upd {A} (f : addr -> A) (a : addr) (v : A) : addr -> A :=
  fun b => if Nat.eqb b a then v else f b.
Definition set_cell (w : world) (a : addr) (c : option cell) : world :=
  mkWorld (upd (heap w) a c) (next w) (copied w).
Definition rcell (w : world) (a : addr) : res cell :=
  match heap w a with Some c => Ok c | None => UB end.

(** std::size_t arithmetic. *)
Definition w64 (x : N) : N := x mod 2^64.
Definition max64 : N := 2^64 - 1.

(** node.hpp:46-50, sizeof_n. *)
Definition sizeof_n (count : N) : N := N.max (w64 (off + w64 (esz * count))) nodesz.
(** The number of elements that fit in such a block. *)
Definition room (count : N) : N := (sizeof_n count - off) / esz.

(** node.hpp:73-76, make_n. *)
Definition make_n (w : world) (n : N) : res (option (addr * world)) :=
  if limit <? sizeof_n n then Ok None
  else Ok (Some (next w,
         mkWorld (upd (heap w) (next w) (Some (mkCell 1 (repeat None (N.to_nat (room n))))))
                 (S (next w)) (copied w))).

(** Reading element [i]. *)
Definition read (sl : list (option T)) (i : N) : res T :=
  o <- rnthN sl i ;; match o with Some x => Ok x | None => UB end.
(** Reading the range [0, n). *)
Fixpoint read_n (n : nat) (sl : list (option T)) : res (list T) :=
  match n with
  | O => Ok []
  | S n' => match sl with
            | Some x :: sl' => xs <- read_n n' sl' ;; Ok (x :: xs)
            | _ => UB
            end
  end.
(** Assigning to element [i]. *)
Definition assign (sl : list (option T)) (i : N) (x : T) : res (list (option T)) :=
  _ <- read sl i ;; Ok (updN i (Some x) sl).
(** [new (data() + i) T{x}]. *)
Definition construct (sl : list (option T)) (i : N) (x : T) : res (list (option T)) :=
  o <- rnthN sl i ;;
  match o with
  | None => Ok (updN i (Some x) sl)
  | Some _ => if trivial then Ok (updN i (Some x) sl) else UB
  end.
(** detail::uninitialized_copy / std::uninitialized_fill_n from position [i] on. *)
Fixpoint construct_all (sl : list (option T)) (i : N) (xs : list T)
  : res (list (option T)) :=
  match xs with
  | [] => Ok sl
  | x :: xs' => sl' <- construct sl i x ;; construct_all sl' (i + 1) xs'
  end.
(** util.hpp:71-98, destroy_n from position [i] on. *)
Fixpoint destroy_n (sl : list (option T)) (i : N) (n : nat) : res (list (option T)) :=
  if trivial then Ok sl
  else match n with
       | O => Ok sl
       | S n' => _ <- read sl i ;; destroy_n (updN i None sl) (i + 1) n'
       end.

(** node.hpp:67-71, delete_n; the block must not contain live elements when it goes. *)
Definition is_raw (o : option T) : bool := match o with None => true | Some _ => false end.
Definition delete_n (w : world) (a : addr) (sz : N) : res world :=
  c <- rcell w a ;;
  sl <- destroy_n (slots c) 0 (N.to_nat sz) ;;
  if trivial || forallb is_raw sl then Ok (set_cell w a None) else UB.

(** node.hpp:85-97, fill_n, and 99-114, copy_n from a range: [xs] is the range. *)
Definition fill_node (w : world) (n : N) (xs : list T) : res (option (addr * world)) :=
  ' (a, w') <~ make_n w n ;;
  c <- rcell w' a ;;
  sl <- construct_all (slots c) 0 xs ;;
  Ok (Some (a, mkWorld (upd (heap w') a (Some (mkCell (rc c) sl))) (next w')
                       (copied w' + lenN xs))).
(** node.hpp:116-119, copy_n from a node; 121-132, copy_e is the same here (the edit
    token is empty with reference counting: no_transience_policy.hpp). *)
Definition copy_n (w : world) (n : N) (a : addr) (count : N) : res (option (addr * world)) :=
  c <- rcell w a ;;
  xs <- read_n (N.to_nat count) (slots c) ;;
  fill_node w n xs.

(** with_capacity.hpp:30-32. *)
Record handle : Type := mkHandle { ptr : addr; hsize : N; hcap : N }.

(** inc: 86-90. *)
Definition inc (w : world) (a : addr) : res world :=
  c <- rcell w a ;; Ok (set_cell w a (Some (mkCell (rc c + 1) (slots c)))).
(** dec: 92-97. *)
Definition dec (w : world) (h : handle) : res world :=
  c <- rcell w (ptr h) ;;
  if rc c =? 0 then UB
  else if rc c =? 1 then delete_n w (ptr h) (hsize h)
  else Ok (set_cell w (ptr h) (Some (mkCell (rc c - 1) (slots c)))).
(** node.hpp:62-65, can_mutate. *)
Definition can_mutate (w : world) (a : addr) : res bool :=
  c <- rcell w a ;; Ok (rc c =? 1).

(** recommend_up: 170-177. *)
Definition recommend_up (sz cap : N) : N :=
  if sz <=? cap then cap
  else if max64 / 2 <=? cap then max64
  else N.max (w64 (2 * cap)) sz.
(** recommend_down: 179-185. *)
Definition recommend_down (sz cap : N) : N :=
  if sz =? 0 then 1
  else if sz <? cap / 2 then w64 (sz * 2)
  else cap.

(** Writing through a handle: read the cell, replace its slots. *)
Definition write_slots (w : world) (a : addr) (sl : list (option T)) : res world :=
  c <- rcell w a ;; Ok (set_cell w a (Some (mkCell (rc c) sl))).

(** push_back: 187-199. *)
Definition push_back (w : world) (h : handle) (x : T) : res (option (handle * world)) :=
  let cap := recommend_up (w64 (hsize h + 1)) (hcap h) in
  ' (p, w1) <~ copy_n w cap (ptr h) (hsize h) ;;
  c <- rcell w1 p ;;
  sl <- construct (slots c) (hsize h) x ;;
  w2 <- write_slots w1 p sl ;;
  Ok (Some (mkHandle p (w64 (hsize h + 1)) cap, w2)).

(** [*this = {p, s, c}]: move assignment (74-78) swaps, and the old contents are
    released by the destructor of the temporary (84). *)
Definition replace (w : world) (h : handle) (h' : handle) : res (option (handle * world)) :=
  w' <- dec w h ;; Ok (Some (h', w')).

(** push_back_mut: 201-218. *)
Definition push_back_mut (w : world) (h : handle) (x : T) : res (option (handle * world)) :=
  m <- can_mutate w (ptr h) ;;
  if m && (hsize h <? hcap h) then
    c <- rcell w (ptr h) ;;
    sl <- construct (slots c) (hsize h) x ;;
    w' <- write_slots w (ptr h) sl ;;
    Ok (Some (mkHandle (ptr h) (w64 (hsize h + 1)) (hcap h), w'))
  else
    ' (h', w') <~ push_back w h x ;;
    replace w' h h'.

(** update: 254-268; assoc (220-232) is the case of a constant function. *)
Definition update (w : world) (h : handle) (i : N) (f : T -> T)
  : res (option (handle * world)) :=
  ' (p, w1) <~ copy_n w (hcap h) (ptr h) (hsize h) ;;
  c <- rcell w1 p ;;
  x <- read (slots c) i ;;
  sl <- assign (slots c) i (f x) ;;
  w2 <- write_slots w1 p sl ;;
  Ok (Some (mkHandle p (hsize h) (hcap h), w2)).
(** update_mut: 270-290, and assoc_mut 234-250, data_mut 102-110 followed by a write. *)
Definition update_mut (w : world) (h : handle) (i : N) (f : T -> T)
  : res (option (handle * world)) :=
  m <- can_mutate w (ptr h) ;;
  if m : bool then
    c <- rcell w (ptr h) ;;
    x <- read (slots c) i ;;
    sl <- assign (slots c) i (f x) ;;
    w' <- write_slots w (ptr h) sl ;;
    Ok (Some (h, w'))
  else
    ' (h', w') <~ update w h i f ;;
    replace w' h h'.

(** take: 292-298. *)
Definition take (w : world) (h : handle) (sz : N) : res (option (handle * world)) :=
  let cap := recommend_down sz (hcap h) in
  ' (p, w') <~ copy_n w cap (ptr h) sz ;;
  Ok (Some (mkHandle p sz cap, w')).
(** take_mut: 300-311.  [destroy_n(data() + size, size - sz)] as in the source, with
    [size - sz] in std::size_t. *)
Definition take_mut (w : world) (h : handle) (sz : N) : res (option (handle * world)) :=
  m <- can_mutate w (ptr h) ;;
  if m : bool then
    c <- rcell w (ptr h) ;;
    sl <- destroy_n (slots c) (hsize h) (N.to_nat (w64 (hsize h + 2^64 - sz))) ;;
    w' <- write_slots w (ptr h) sl ;;
    Ok (Some (mkHandle (ptr h) sz (hcap h), w'))
  else
    ' (h', w') <~ take w h sz ;;
    replace w' h h'.

(** from_range: 122-134 (an empty range gives a copy of empty(), see [step]), from_fill:
    143-146. *)
Definition from_list (w : world) (xs : list T) : res (option (handle * world)) :=
  ' (p, w') <~ fill_node w (lenN xs) xs ;;
  Ok (Some (mkHandle p (lenN xs) (lenN xs), w')).

(** get: 160; get_check: 162-167 ([None] is std::out_of_range). *)
Definition get (w : world) (h : handle) (i : N) : res T :=
  c <- rcell w (ptr h) ;; read (slots c) i.
Definition get_check (w : world) (h : handle) (i : N) : res (option T) :=
  if hsize h <=? i then Ok None else x <- get w h i ;; Ok (Some x).

(** equals: 169-174, with the element comparison. *)
Variable teq : T -> T -> bool.
Fixpoint equal_n (n : nat) (a b : list (option T)) : res bool :=
  match n with
  | O => Ok true
  | S n' => match a, b with
            | Some x :: a', Some y :: b' => if teq x y then equal_n n' a' b' else Ok false
            | _, _ => UB
            end
  end.
Definition equals (w : world) (h1 h2 : handle) : res bool :=
  if Nat.eqb (ptr h1) (ptr h2) then Ok true
  else if hsize h1 =? hsize h2 then
    c1 <- rcell w (ptr h1) ;; c2 <- rcell w (ptr h2) ;;
    equal_n (N.to_nat (hsize h1)) (slots c1) (slots c2)
  else Ok false.

(** ** Programs
    A program state has the memory and the variables of type array / array_transient;
    [None] is a variable whose lifetime has ended.  Variable 0 is the static of
    with_capacity::empty() (34-38).  array::transient (array.hpp:303-310) and
    array_transient::persistent (array_transient.hpp) copy or move the with_capacity. *)
Record state : Type := mkState { mem : world; vars : list (option handle) }.

Definition init : res (option state) :=
  ' (p, w) <~ make_n (mkWorld (fun _ => None) O 0) 1 ;;
  Ok (Some (mkState w [Some (mkHandle p 0 1)])).

Definition rvar (s : state) (i : nat) : res handle :=
  match nth_error (vars s) i with Some (Some h) => Ok h | _ => UB end.
Definition add_var (w : world) (vs : list (option handle)) (h : handle) : state :=
  mkState w (vs ++ [Some h]).
Definition set_var (w : world) (vs : list (option handle)) (i : nat) (h : handle) : state :=
  mkState w (update_at i (Some h) vs).

Inductive op : Type :=
| New                                   (* array() : array.hpp:372 *)
| FromList (xs : list T)                (* array(first, last), array{...} *)
| Fill (n : N) (x : T)                  (* array(n, x) *)
| Copy (i : nat)                        (* copy constructor, transient() &, persistent() & *)
| Move (i : nat)                        (* move constructor, transient() &&, persistent() && *)
| Assign (i j : nat)                    (* i = j *)
| MoveAssign (i j : nat)                (* i = std::move(j) *)
| Destroy (i : nat)
| PushBack (i : nat) (x : T)            (* i.push_back(x), a new array *)
| PushBackMut (i : nat) (x : T)         (* on a transient or an rvalue *)
| Update (i : nat) (k : N) (f : T -> T)
| UpdateMut (i : nat) (k : N) (f : T -> T)
| Take (i : nat) (n : N)
| TakeMut (i : nat) (n : N).

Definition step (s : state) (o : op) : res (option state) :=
  let fresh m := ' (h, w) <~ m ;; Ok (Some (add_var w (vars s) h)) in
  let inplace i m := ' (h, w) <~ m ;; Ok (Some (set_var w (vars s) i h)) in
  (* copy constructor: with_capacity.hpp:46-50 *)
  let copy h := w <- inc (mem s) (ptr h) ;; Ok (Some (h, w)) in
  match o with
  | New => e <- rvar s O ;; fresh (copy e)
  | FromList [] => e <- rvar s O ;; fresh (copy e)
  | FromList xs => fresh (from_list (mem s) xs)
  | Fill n x =>
      fresh (' (p, w') <~ fill_node (mem s) n (repeat x (N.to_nat n)) ;;
             Ok (Some (mkHandle p n n, w')))
  | Copy i => h <- rvar s i ;; fresh (copy h)
  | Move i =>
      (* 58-62: start as a copy of empty() and swap *)
      h <- rvar s i ;; e <- rvar s O ;;
      w <- inc (mem s) (ptr e) ;;
      Ok (Some (add_var w (update_at i (Some e) (vars s)) h))
  | Assign i j =>
      (* 64-69: copy, swap, and the old contents die with [next] *)
      hi <- rvar s i ;; hj <- rvar s j ;;
      w <- inc (mem s) (ptr hj) ;;
      w' <- dec w hi ;;
      Ok (Some (set_var w' (vars s) i hj))
  | MoveAssign i j =>
      (* 71-75: swap *)
      hi <- rvar s i ;; hj <- rvar s j ;;
      Ok (Some (mkState (mem s) (update_at j (Some hi) (update_at i (Some hj) (vars s)))))
  | Destroy i =>
      h <- rvar s i ;; w <- dec (mem s) h ;;
      Ok (Some (mkState w (update_at i None (vars s))))
  | PushBack i x => h <- rvar s i ;; fresh (push_back (mem s) h x)
  | PushBackMut i x => h <- rvar s i ;; inplace i (push_back_mut (mem s) h x)
  | Update i k f => h <- rvar s i ;; fresh (update (mem s) h k f)
  | UpdateMut i k f => h <- rvar s i ;; inplace i (update_mut (mem s) h k f)
  | Take i n => h <- rvar s i ;; fresh (take (mem s) h n)
  | TakeMut i n => h <- rvar s i ;; inplace i (take_mut (mem s) h n)
  end.

(** A whole program; an operation that throws is caught and the program goes on. *)
Fixpoint run (s : state) (os : list op) : res state :=
  match os with
  | [] => Ok s
  | o :: os' =>
      r <- step s o ;;
      run (match r with Some s' => s' | None => s end) os'
  end.

End Array.
Arguments op T : clear implicits.
Arguments state T : clear implicits.
Arguments world T : clear implicits.
Arguments cell T : clear implicits.
