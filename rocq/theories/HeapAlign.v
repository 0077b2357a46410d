(** The addresses the heap of a vector returns.

    Source: immer/heap/{heap_policy,split_heap,with_data,free_list_node,free_list_heap,
    thread_local_free_list_heap,unsafe_free_list_heap,debug_size_heap}.hpp.  A heap maps the address of a block of its parent to
    the address it returns; free lists return blocks again as they came from the parent. *)
From Coq Require Import List NArith Bool.
From Verif Require Import Layout.
Local Open Scope N_scope.

Inductive heap :=
| Parent                         (* cpp_heap, malloc_heap *)
| FreeList (base : heap)         (* free_list_heap.hpp:34-55, unsafe_free_list_heap.hpp:47-62 *)
| WithData (s : N) (base : heap) (* with_data.hpp:28-33 *)
| DebugSize (base : heap)        (* debug_size_heap.hpp:50-56 *)
| Split (limit : N) (small big : heap). (* split_heap.hpp:24-29 *)
(** What [h] returns for a request of [size] bytes when its parent returns [p]. *)
Fixpoint returned (h : heap) (size p : N) : N :=
  match h with
  | Parent => p
  | FreeList b => returned b size p
  | WithData s b => returned b (size + s) p + s
  | DebugSize b => returned b (size + 16) p + 16
  | Split l small big => if size <=? l then returned small size p else returned big size p
  end.
(** free_list_heap_policy::optimized, heap_policy.hpp:101-117; unsafe_free_list_heap_policy has one free
    list instead of two, which makes no difference here.  IMMER_ENABLE_DEBUG_SIZE_HEAP is [debug].
    sizeof(free_list_node) is 8. *)
Definition debug_heap (debug : bool) : heap := if debug then DebugSize Parent else Parent.
Definition optimized (debug : bool) (limit : N) : heap :=
  Split limit (WithData 8 (FreeList (FreeList (debug_heap debug)))) (debug_heap debug).
(** The heap of vectors, rbts/node.hpp:154-155. *)
Definition vec_heap (debug : bool) (T refs ownee : ty) (tagged : bool) (width : nat) : heap :=
  optimized debug (packed_inner T refs ownee tagged width).
