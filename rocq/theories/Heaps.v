(** Model of the heap adaptors and their compositions: heap/{identity_heap,debug_size_heap,
    with_data,free_list_node,split_heap,unsafe_free_list_heap,thread_local_free_list_heap,
    free_list_heap,heap_policy}.hpp.

    Addresses and sizes are numbers of bytes, without the wrap-around of additions to sizes
    near 2^64; alignment is not modelled.  A heap type is an expression.  The operations here
    are atomic: the interleavings inside free_list_heap are in FreeList.v. *)
From Coq Require Import List Arith NArith Bool.
From Verif Require Import Common HeapSpec.
Import ListNotations.
Open Scope N_scope.

(** The three free lists: unsafe_free_list_heap (unsafe_free_list_heap.hpp:103-109), whose head is
    a static variable, thread_local_free_list_heap (thread_local_free_list_heap.hpp:49-55), whose
    head is a thread_local variable, and free_list_heap (free_list_heap.hpp:28-82). *)
Inductive kind : Type := Unsafe | Local | Global.
(** Heap types. *)
Inductive heapx : Type :=
| Parent (i : nat)                                 (* cpp_heap, malloc_heap, ... *)
| Identity (h : heapx)                             (* identity_heap<h> *)
| DebugSize (h : heapx)                            (* debug_size_heap<h>, when enabled *)
| WithData (k : N) (h : heapx)                     (* with_data<T, h>, k = sizeof(T) *)
| Split (size : N) (small big : heapx)             (* split_heap<size, small, big> *)
| FreeList (k : kind) (size limit : N) (h : heapx).
Definition kind_eq_dec (a b : kind) : {a = b} + {a <> b}.
Proof. decide equality. Defined.
Definition heapx_eq_dec (a b : heapx) : {a = b} + {a <> b}.
Proof. decide equality; auto using N.eq_dec, Nat.eq_dec, kind_eq_dec. Defined.

(** Memory: the blocks the parents have handed out, the words stored, the head of each free
    list (first node or null, count), and the calls made to the parents. *)
Record mstate : Type := mkM
  { blocks : list (nat * N * N);
    mem : N -> N;
    heads : heapx * nat -> N * N;
    calls : list pevent }.

Definition szm (n : N) : N := n mod 2 ^ 64.
Definition overlap (p n q m : N) : bool := (p <? q + m) && (q <? p + n).

Section Model.
(** sizeof(std::size_t) = sizeof(free_list_node), and debug_size_heap::extra_size. *)
Variables word extra : N.

(** Storing a word destroys the words that overlap it. *)
Definition store (m : N -> N) (x v : N) : N -> N :=
  fun y => if y =? x then v else if overlap y word x word then 0 else m y.
(** Constructing an object of [k] bytes at [p] destroys the words that overlap it. *)
Definition construct (m : N -> N) (p k : N) : N -> N :=
  fun y => if overlap y word p k then 0 else m y.

Definition set_mem (s : mstate) (m : N -> N) : mstate := mkM (blocks s) m (heads s) (calls s).
Definition key_eq_dec (a b : heapx * nat) : {a = b} + {a <> b}.
Proof. decide equality; auto using heapx_eq_dec, Nat.eq_dec. Defined.
Definition put_head (f : heapx * nat -> N * N) (k : heapx * nat) (v : N * N) : heapx * nat -> N * N :=
  fun k' => if key_eq_dec k' k then v else f k'.
Definition set_head (s : mstate) (k : heapx * nat) (v : N * N) : mstate :=
  mkM (blocks s) (mem s) (put_head (heads s) k v) (calls s).
(** storage::head(): the variable belongs to the class, and for thread_local storage to the
    thread. *)
Definition key (k : kind) (h : heapx) (t : nat) : heapx * nat :=
  match k with Local => (h, t) | _ => (h, 0%nat) end.

Definition block_eqb (x y : nat * N * N) : bool :=
  let '(i, a, n) := x in let '(j, b, m) := y in (i =? j)%nat && (a =? b) && (n =? m).
Fixpoint take_block (x : nat * N * N) (l : list (nat * N * N)) : option (list (nat * N * N)) :=
  match l with
  | [] => None
  | y :: l' => if block_eqb x y then Some l' else option_map (cons y) (take_block x l')
  end.

(** allocate(size) of heap [h] called by thread [t].  A parent heap returns [a] if it can: the
    block must not be null nor overlap one in use ([None] otherwise). *)
Fixpoint allocate (h : heapx) (t : nat) (a sz : N) (s : mstate) : res (option (mstate * N)) :=
  match h with
  | Parent i =>
      if (a =? 0) || existsb (fun b => overlap a (N.max 1 sz) (snd (fst b)) (N.max 1 (snd b))) (blocks s)
      then Ok None
      else Ok (Some (mkM ((i, a, sz) :: blocks s) (mem s) (heads s) (calls s ++ [PGot i a sz]), a))
  | Identity h' => allocate h' t a sz s                         (* identity_heap.hpp:22-25 *)
  | DebugSize h' =>                                             (* debug_size_heap.hpp:50-55 *)
      o <- allocate h' t a (sz + extra) s ;;
      match o with
      | None => Ok None
      | Some (s', p) => Ok (Some (set_mem s' (store (mem s') p sz), p + extra))
      end
  | WithData k h' =>                                            (* with_data.hpp:28-32 *)
      o <- allocate h' t a (sz + k) s ;;
      match o with
      | None => Ok None
      | Some (s', p) => Ok (Some (set_mem s' (construct (mem s') p k), p + k))
      end
  | Split size small big =>                                     (* split_heap.hpp:25-29 *)
      if sz <=? size then allocate small t a sz s else allocate big t a sz s
  | FreeList k size limit h' =>        (* unsafe_free_list_heap.hpp:48-61, free_list_heap.hpp:34-49 *)
      if (sz <=? word + size) && (word <=? sz) then
        let '(n, c) := heads s (key k h t) in
        if n =? 0 then allocate h' t a (size + word) s
        else Ok (Some (set_head s (key k h t) (mem s n, szm (c + (2 ^ 64 - 1))), n))
      else UB
  end.

(** deallocate(size, p). *)
Fixpoint deallocate (h : heapx) (t : nat) (sz p : N) (s : mstate) : res mstate :=
  match h with
  | Parent i =>
      match take_block (i, p, sz) (blocks s) with
      | None => UB
      | Some bs => Ok (mkM bs (mem s) (heads s) (calls s ++ [PGave i p sz]))
      end
  | Identity h' => deallocate h' t sz p s                       (* identity_heap.hpp:28-31 *)
  | DebugSize h' =>                                             (* debug_size_heap.hpp:58-63 *)
      if p <? extra then UB
      else if mem s (p - extra) =? sz then deallocate h' t (sz + extra) (p - extra) s else UB
  | WithData k h' =>                                            (* with_data.hpp:35-40 *)
      if p <? k then UB else deallocate h' t (sz + k) (p - k) s
  | Split size small big =>                                     (* split_heap.hpp:32-38 *)
      if sz <=? size then deallocate small t sz p s else deallocate big t sz p s
  | FreeList k size limit h' =>        (* unsafe_free_list_heap.hpp:64-77, free_list_heap.hpp:52-68 *)
      if (sz <=? word + size) && (word <=? sz) then
        let '(n, c) := heads s (key k h t) in
        if limit <=? c then deallocate h' t (size + word) p s
        else Ok (set_head (set_mem s (store (mem s) p n)) (key k h t) (p, szm (c + 1)))
      else UB
  end.

(** clear(), unsafe_free_list_heap.hpp:79-88, also run when a thread ends
    (thread_local_free_list_heap.hpp:26).  The loop gets as much fuel as it has blocks. *)
Fixpoint clear_loop (fuel : nat) (ky : heapx * nat) (size : N) (h' : heapx) (t : nat) (s : mstate)
  : res mstate :=
  let '(d, _) := heads s ky in
  if d =? 0 then Ok s
  else match fuel with
       | O => UB
       | S f =>
           let n := mem s d in
           s1 <- deallocate h' t (size + word) d s ;;
           clear_loop f ky size h' t
             (set_head s1 ky (n, szm (snd (heads s1 ky) + (2 ^ 64 - 1))))
       end.
Definition clear (h : heapx) (t : nat) (s : mstate) : res mstate :=
  match h with
  | FreeList Global _ _ _ => Ok s                (* free_list_heap has no clear *)
  | FreeList k size limit h' =>
      clear_loop (S (N.to_nat (snd (heads s (key k h t))))) (key k h t) size h' t s
  | _ => Ok s
  end.

(** A program: threads allocate and deallocate, end, and write into the blocks they have.  The
    caller passes deallocate the size it passed allocate, to the same heap type. *)
Inductive hop : Type :=
| HAlloc (h : heapx) (t : nat) (sz a : N)
| HFree (i t : nat)                              (* any thread frees the i-th block in use *)
| HWrite (i : nat) (g : N -> N)                  (* overwrite the i-th block in use *)
| HClear (h : heapx) (t : nat).
Record client : Type := mkC { mst : mstate; used : list (heapx * N * N) }.
Definition hstep (c : client) (o : hop) : res (option client) :=
  match o with
  | HAlloc h t sz a =>
      r <- allocate h t a sz (mst c) ;;
      match r with
      | None => Ok None
      | Some (s, p) => Ok (Some (mkC s ((h, sz, p) :: used c)))
      end
  | HFree i t =>
      match nth_error (used c) i with
      | None => Ok None
      | Some (h, sz, p) =>
          s <- deallocate h t sz p (mst c) ;; Ok (Some (mkC s (remove_at i (used c))))
      end
  | HWrite i g =>
      match nth_error (used c) i with
      | None => Ok None
      | Some (h, sz, p) =>
          Ok (Some (mkC (set_mem (mst c)
                (fun y => if overlap y word p sz then g y else mem (mst c) y)) (used c)))
      end
  | HClear h t => s <- clear h t (mst c) ;; Ok (Some (mkC s (used c)))
  end.
Fixpoint hrun (c : client) (os : list hop) : res client :=
  match os with
  | [] => Ok c
  | o :: os' => r <- hstep c o ;; hrun (match r with Some c' => c' | None => c end) os'
  end.
(** At the start nothing is allocated, the free lists are empty, the memory is arbitrary. *)
Definition hinit (m : N -> N) : client := mkC (mkM [] m (fun _ => (0, 0)) []) [].

(** heap_policy.hpp:102-117: what free_list_heap_policy<Parent 0, limit>::optimized<size> is; [dbg]
    is IMMER_ENABLE_DEBUG_SIZE_HEAP. *)
Definition debug (dbg : bool) (h : heapx) : heapx := if dbg then DebugSize h else Identity h.
Definition optimized (dbg : bool) (size limit : N) : heapx :=
  Split size
    (WithData word (FreeList Local size limit (FreeList Global size limit (debug dbg (Parent 0)))))
    (debug dbg (Parent 0)).
(** heap_policy.hpp:125-138: unsafe_free_list_heap_policy. *)
Definition unsafe_optimized (dbg : bool) (size limit : N) : heapx :=
  Split size
    (WithData word (FreeList Unsafe size limit (debug dbg (Parent 0))))
    (debug dbg (Parent 0)).
End Model.
