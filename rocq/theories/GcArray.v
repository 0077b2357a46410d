(** Model of immer::array and immer::array_transient under a tracing garbage collector
    (gc_transience_policy, no reference counts): immer/detail/arrays/no_capacity.hpp,
    with_capacity.hpp, node.hpp, immer/array.hpp, immer/array_transient.hpp,
    immer/transience/gc_transience_policy.hpp.

    Without reference counts [use_transient_rvalues] is false (memory_policy.hpp:53-62), so an
    array holds a no_capacity (array.hpp:45-48) and its rvalue methods are the const ones
    (array.hpp:335-370, the std::false_type overloads); an array_transient holds a with_capacity and an owner, whose
    token it may compare with the token of a node (node.hpp:57-60: [unique()] is false,
    no_refcount_policy.hpp).  Nodes are never freed here: the collector frees only what
    nobody can reach.

    Outcomes: [UB] is undefined behaviour; exceptions (std::bad_alloc, std::out_of_range)
    are the result [Threw] together with the state they leave.

    Simplified: the statics of empty() are made at the start rather than on first use, and
    tokens (blocks of one byte) can always be allocated.  Exceptions of the element type are
    not modelled (see Lifetime.v), nor are threads. *)
From Coq Require Import List NArith Arith Bool.
From Verif Require Import Common NList Array.
Import ListNotations.
Local Open Scope N_scope.

Section GcArray.
Context {T : Type}.
(** As in Array.v: are the elements trivially destructible; sizeof(T), the offset of the
    buffer, sizeof(node), the largest request the heap satisfies; element equality. *)
Variable trivial : bool.
Variables esz off nodesz limit : N.
Variable teq : T -> T -> bool.

(** node.hpp:23-47: the owner's token ([0] is nullptr, gc_transience_policy.hpp:88) and the
    slots of the buffer. *)
Record block : Type := mkBlock { tok : nat; cells : list (option T) }.
(** The blocks ever allocated, the next token, and (a ghost) the elements copied so far. *)
Record gmem : Type := mkMem { blocks : list block; next_tok : nat; ncopied : N }.

Definition rblock (m : gmem) (a : addr) : res block := rnth (blocks m) a.

(** gc_transience_policy.hpp:53-56, make_token_: an address unlike all others. *)
Definition new_token (m : gmem) : nat * gmem :=
  (next_tok m, mkMem (blocks m) (S (next_tok m)) (ncopied m)).

(** node.hpp:68-78, make_n and make_e; [e = 0] is make_n, which leaves the token null. *)
Definition gmake (m : gmem) (e : nat) (n : N) : res (option (addr * gmem)) :=
  if limit <? sizeof_n esz off nodesz n then Ok None
  else Ok (Some (length (blocks m),
         mkMem (blocks m ++ [mkBlock e (repeat None (N.to_nat (room esz off nodesz n)))])
               (next_tok m) (ncopied m))).
(** node.hpp:80-108: a new node with the elements of a range or copies of one element. *)
Definition gfill (m : gmem) (e : nat) (n : N) (xs : list T) : res (option (addr * gmem)) :=
  ' (a, m1) <~ gmake m e n ;;
  b <- rblock m1 a ;;
  sl <- construct_all trivial (cells b) 0 xs ;;
  Ok (Some (a, mkMem (update_at a (mkBlock (tok b) sl) (blocks m1)) (next_tok m1)
                     (ncopied m1 + lenN xs))).
(** node.hpp:110-113, copy_n ([e = 0]), and 115-126, copy_e. *)
Definition gcopy (m : gmem) (e : nat) (n : N) (a : addr) (count : N)
  : res (option (addr * gmem)) :=
  b <- rblock m a ;;
  xs <- read_n (N.to_nat count) (cells b) ;;
  gfill m e n xs.
(** Writing the slots of a node. *)
Definition gwrite (m : gmem) (a : addr) (sl : list (option T)) : res gmem :=
  b <- rblock m a ;;
  Ok (mkMem (update_at a (mkBlock (tok b) sl) (blocks m)) (next_tok m) (ncopied m)).
(** node.hpp:57-60, can_mutate; gc_transience_policy.hpp:100. *)
Definition gown (m : gmem) (a : addr) (e : nat) : res bool :=
  b <- rblock m a ;; Ok (Nat.eqb (tok b) e).

(** ** no_capacity.hpp *)

(** empty(): 33-40. *)
Definition nc_empty : addr * N := (0%nat, 0).
(** push_back: 161-172. *)
Definition nc_push (m : gmem) (p : addr) (s : N) (x : T) : res (option (addr * N * gmem)) :=
  ' (q, m1) <~ gcopy m 0 (w64 (s + 1)) p s ;;
  b <- rblock m1 q ;;
  sl <- construct trivial (cells b) s x ;;
  m2 <- gwrite m1 q sl ;;
  Ok (Some (q, w64 (s + 1), m2)).
(** update: 187-200; assoc (174-185) is the case of a constant function. *)
Definition nc_update (m : gmem) (p : addr) (s : N) (k : N) (f : T -> T)
  : res (option (addr * N * gmem)) :=
  ' (q, m1) <~ gcopy m 0 s p s ;;
  b <- rblock m1 q ;;
  x <- read (cells b) k ;;
  sl <- assign (cells b) k (f x) ;;
  m2 <- gwrite m1 q sl ;;
  Ok (Some (q, s, m2)).
(** take: 202-206. *)
Definition nc_take (m : gmem) (p : addr) (sz : N) : res (option (addr * N * gmem)) :=
  ' (q, m1) <~ gcopy m 0 sz p sz ;; Ok (Some (q, sz, m1)).
(** from_range: 109-119; from_fill: 121-124. *)
Definition nc_range (m : gmem) (xs : list T) : res (option (addr * N * gmem)) :=
  match xs with
  | [] => Ok (Some (nc_empty, m))
  | _ => ' (q, m1) <~ gfill m 0 (lenN xs) xs ;; Ok (Some (q, lenN xs, m1))
  end.
Definition nc_fill (m : gmem) (n : N) (x : T) : res (option (addr * N * gmem)) :=
  ' (q, m1) <~ gfill m 0 n (repeat x (N.to_nat n)) ;; Ok (Some (q, n, m1)).
(** get_check: 147-152, for both classes ([None] is std::out_of_range). *)
Definition g_get_check (m : gmem) (p : addr) (s : N) (k : N) : res (option T) :=
  if s <=? k then Ok None
  else b <- rblock m p ;; x <- read (cells b) k ;; Ok (Some x).
(** equals: 154-159. *)
Definition nc_equals (m : gmem) (p : addr) (s : N) (p' : addr) (s' : N) : res bool :=
  if Nat.eqb p p' then Ok true
  else if s =? s' then
    b <- rblock m p ;; b' <- rblock m p' ;;
    equal_n teq (N.to_nat s) (cells b) (cells b')
  else Ok false.

(** ** with_capacity.hpp *)

(** empty(): 35-39. *)
Definition wc_empty : handle := mkHandle 1%nat 0 1.
(** The constructor from a no_capacity: 53-57. *)
Definition wc_of_nc (p : addr) (s : N) : handle := mkHandle p s s.
(** operator no_capacity_t: 114-122. *)
Definition nc_of_wc (m : gmem) (h : handle) : res (option (addr * N * gmem)) :=
  if hsize h =? hcap h then Ok (Some (ptr h, hsize h, m))
  else ' (q, m1) <~ gcopy m 0 (hsize h) (ptr h) (hsize h) ;; Ok (Some (q, hsize h, m1)).

(** push_back_mut: 209-226. *)
Definition wc_push_mut (m : gmem) (e : nat) (h : handle) (x : T)
  : res (option (handle * gmem)) :=
  o <- gown m (ptr h) e ;;
  if o && (hsize h <? hcap h) then
    b <- rblock m (ptr h) ;;
    sl <- construct trivial (cells b) (hsize h) x ;;
    m' <- gwrite m (ptr h) sl ;;
    Ok (Some (mkHandle (ptr h) (w64 (hsize h + 1)) (hcap h), m'))
  else
    let cap := recommend_up (w64 (hsize h + 1)) (hcap h) in
    ' (q, m1) <~ gcopy m e cap (ptr h) (hsize h) ;;
    b <- rblock m1 q ;;
    sl <- construct trivial (cells b) (hsize h) x ;;
    m2 <- gwrite m1 q sl ;;
    Ok (Some (mkHandle q (w64 (hsize h + 1)) cap, m2)).

(** update_mut: 273-291 ([e' = e], copy_e) and assoc_mut: 241-256, which copies with copy_n
    ([e' = 0]) and so does not own what it made. *)
Definition wc_edit (m : gmem) (e e' : nat) (h : handle) (k : N) (f : T -> T)
  : res (option (handle * gmem)) :=
  o <- gown m (ptr h) e ;;
  if o : bool then
    b <- rblock m (ptr h) ;;
    x <- read (cells b) k ;;
    sl <- assign (cells b) k (f x) ;;
    m' <- gwrite m (ptr h) sl ;;
    Ok (Some (h, m'))
  else
    ' (q, m1) <~ gcopy m e' (hcap h) (ptr h) (hsize h) ;;
    b <- rblock m1 q ;;
    x <- read (cells b) k ;;
    sl <- assign (cells b) k (f x) ;;
    m2 <- gwrite m1 q sl ;;
    Ok (Some (mkHandle q (hsize h) (hcap h), m2)).
(** data_mut (104-112) followed by a write through the pointer is [wc_update_mut] with a
    constant function. *)
Definition wc_update_mut (m : gmem) (e : nat) := wc_edit m e e.
Definition wc_assoc_mut (m : gmem) (e : nat) (h : handle) (k : N) (x : T) :=
  wc_edit m e 0 h k (fun _ => x).

(** take_mut: 301-312, with [destroy_n(data() + size, size - sz)] as in the source. *)
Definition wc_take_mut (m : gmem) (e : nat) (h : handle) (sz : N)
  : res (option (handle * gmem)) :=
  o <- gown m (ptr h) e ;;
  if o : bool then
    b <- rblock m (ptr h) ;;
    sl <- destroy_n trivial (cells b) (hsize h) (N.to_nat (w64 (hsize h + 2^64 - sz))) ;;
    m' <- gwrite m (ptr h) sl ;;
    Ok (Some (mkHandle (ptr h) sz (hcap h), m'))
  else
    let cap := recommend_down sz (hcap h) in
    ' (q, m1) <~ gcopy m e cap (ptr h) sz ;;
    Ok (Some (mkHandle q sz cap, m1)).

(** ** Programs
    A variable is an array, a transient with its token, or gone. *)
Inductive gvar : Type :=
| Arr (p : addr) (s : N)
| Tra (h : handle) (e : nat)
| Gone.
Record gstate : Type := mkG { gm : gmem; gvars : list gvar }.

Inductive gout : Type := Done | Threw | At (x : T) | Equal (b : bool).

Inductive gop : Type :=
| GNew                                 (* array() *)
| GFrom (xs : list T)                  (* array(first, last), array{...} *)
| GFill (n : N) (x : T)                (* array(n, x) *)
| GNewT                                (* array_transient() *)
| GCopy (i : nat)                      (* copy constructor *)
| GMove (i : nat)                      (* move constructor *)
| GAssign (i j : nat)                  (* i = j, variables of the same class *)
| GMoveAssign (i j : nat)              (* i = std::move(j) *)
| GDestroy (i : nat)
| GPush (i : nat) (x : T)              (* array: push_back *)
| GUpdate (i : nat) (k : N) (f : T -> T)  (* array: update, set *)
| GTake (i : nat) (n : N)              (* array: take *)
| GTransient (i : nat)                 (* array: transient(), also on an rvalue *)
| GTPush (i : nat) (x : T)             (* array_transient: push_back *)
| GTUpdate (i : nat) (k : N) (f : T -> T) (* update; data_mut()[k] = x *)
| GTSet (i : nat) (k : N) (x : T)      (* set *)
| GTTake (i : nat) (n : N)             (* take *)
| GPersistent (i : nat)                (* persistent() & *)
| GPersistentRv (i : nat)              (* std::move(i).persistent() *)
| GAt (i : nat) (k : N)                (* at *)
| GEq (i j : nat).                     (* array: == *)

Definition gvar_at (s : gstate) (i : nat) : res gvar := rnth (gvars s) i.

(** A new array variable, or an exception that leaves the state [s]. *)
Definition add_arr (s : gstate) (r : res (option (addr * N * gmem))) : res (gstate * gout) :=
  o <- r ;;
  match o with
  | Some (p, n, m) => Ok (mkG m (gvars s ++ [Arr p n]), Done)
  | None => Ok (s, Threw)
  end.
(** The transient [i] with token [e] after a modification. *)
Definition set_tra (s : gstate) (i : nat) (e : nat) (r : res (option (handle * gmem)))
  : res (gstate * gout) :=
  o <- r ;;
  match o with
  | Some (h, m) => Ok (mkG m (update_at i (Tra h e) (gvars s)), Done)
  | None => Ok (s, Threw)
  end.

Definition gstep (s : gstate) (o : gop) : res (gstate * gout) :=
  let m := gm s in let l := gvars s in
  match o with
  | GNew => add_arr s (Ok (Some (nc_empty, m)))
  | GFrom xs => add_arr s (nc_range m xs)
  | GFill n x => add_arr s (nc_fill m n x)
  | GNewT =>
      (* array_transient.hpp:57, 201 *)
      let (e, m1) := new_token m in Ok (mkG m1 (l ++ [Tra wc_empty e]), Done)
  | GCopy i =>
      v <- gvar_at s i ;;
      match v with
      | Arr p n => Ok (mkG m (l ++ [Arr p n]), Done)
      | Tra h e =>
          (* gc_transience_policy.hpp:65-69: both sides get a new token *)
          let (e1, m1) := new_token m in
          let (e2, m2) := new_token m1 in
          Ok (mkG m2 (update_at i (Tra h e2) l ++ [Tra h e1]), Done)
      | Gone => UB
      end
  | GMove i =>
      v <- gvar_at s i ;;
      match v with
      | Arr p n =>
          (* no_capacity.hpp:53-57 *)
          Ok (mkG m (update_at i (Arr (fst nc_empty) (snd nc_empty)) l ++ [Arr p n]), Done)
      | Tra h e =>
          (* gc_transience_policy.hpp:70-72 copies the token; with_capacity.hpp:59-63 *)
          Ok (mkG m (update_at i (Tra wc_empty e) l ++ [Tra h e]), Done)
      | Gone => UB
      end
  | GAssign i j =>
      v <- gvar_at s i ;; w <- gvar_at s j ;;
      match v, w with
      | Arr _ _, Arr p n => Ok (mkG m (update_at i (Arr p n) l), Done)
      | Tra _ _, Tra h _ =>
          (* gc_transience_policy.hpp:73-78 *)
          let (e1, m1) := new_token m in
          let (e2, m2) := new_token m1 in
          Ok (mkG m2 (update_at i (Tra h e2) (update_at j (Tra h e1) l)), Done)
      | _, _ => UB
      end
  | GMoveAssign i j =>
      v <- gvar_at s i ;; w <- gvar_at s j ;;
      match v, w with
      | Arr p n, Arr p' n' => Ok (mkG m (update_at j (Arr p n) (update_at i (Arr p' n') l)), Done)
      | Tra h e, Tra h' e' =>
          (* gc_transience_policy.hpp:79-83; with_capacity.hpp:72-76 swaps *)
          Ok (mkG m (update_at j (Tra h e') (update_at i (Tra h' e') l)), Done)
      | _, _ => UB
      end
  | GDestroy i =>
      v <- gvar_at s i ;;
      match v with
      | Gone => UB
      | _ => Ok (mkG m (update_at i Gone l), Done)
      end
  | GPush i x =>
      v <- gvar_at s i ;;
      match v with Arr p n => add_arr s (nc_push m p n x) | _ => UB end
  | GUpdate i k f =>
      v <- gvar_at s i ;;
      match v with Arr p n => add_arr s (nc_update m p n k f) | _ => UB end
  | GTake i n =>
      v <- gvar_at s i ;;
      match v with Arr p _ => add_arr s (nc_take m p n) | _ => UB end
  | GTransient i =>
      (* array.hpp:303-310; array_transient.hpp:197-199 with a new owner; the conversion
         takes a const reference, so that an rvalue is not changed either *)
      v <- gvar_at s i ;;
      match v with
      | Arr p n => let (e, m1) := new_token m in
                   Ok (mkG m1 (l ++ [Tra (wc_of_nc p n) e]), Done)
      | _ => UB
      end
  | GTPush i x =>
      v <- gvar_at s i ;;
      match v with Tra h e => set_tra s i e (wc_push_mut m e h x) | _ => UB end
  | GTUpdate i k f =>
      v <- gvar_at s i ;;
      match v with Tra h e => set_tra s i e (wc_update_mut m e h k f) | _ => UB end
  | GTSet i k x =>
      v <- gvar_at s i ;;
      match v with Tra h e => set_tra s i e (wc_assoc_mut m e h k x) | _ => UB end
  | GTTake i n =>
      v <- gvar_at s i ;;
      match v with Tra h e => set_tra s i e (wc_take_mut m e h n) | _ => UB end
  | GPersistent i =>
      (* array_transient.hpp:184-188: a new token first, then the conversion *)
      v <- gvar_at s i ;;
      match v with
      | Tra h e => let (e1, m1) := new_token m in
                   add_arr (mkG m1 (update_at i (Tra h e1) l)) (nc_of_wc m1 h)
      | _ => UB
      end
  | GPersistentRv i =>
      (* array_transient.hpp:189-192: the conversion operator is const, so the transient
         keeps its node and its token *)
      v <- gvar_at s i ;;
      match v with Tra h e => add_arr s (nc_of_wc m h) | _ => UB end
  | GAt i k =>
      v <- gvar_at s i ;;
      r <- match v with
           | Arr p n => g_get_check m p n k
           | Tra h _ => g_get_check m (ptr h) (hsize h) k
           | Gone => UB
           end ;;
      Ok (s, match r with Some x => At x | None => Threw end)
  | GEq i j =>
      v <- gvar_at s i ;; w <- gvar_at s j ;;
      match v, w with
      | Arr p n, Arr p' n' => b <- nc_equals m p n p' n' ;; Ok (s, Equal b)
      | _, _ => UB
      end
  end.

(** The two empty nodes (no_capacity.hpp:33-40, with_capacity.hpp:35-39); [None] if even
    these cannot be allocated.  Token 1 is the first one given out. *)
Definition ginit : res (option gstate) :=
  ' (_, m1) <~ gmake (mkMem [] 1 0) 0 0 ;;
  ' (_, m2) <~ gmake m1 0 1 ;;
  Ok (Some (mkG m2 [])).

(** A whole program and what it shows. *)
Fixpoint grun (s : gstate) (os : list gop) : res (gstate * list gout) :=
  match os with
  | [] => Ok (s, [])
  | o :: os' => ' (s1, r) <- gstep s o ;; ' (s2, rs) <- grun s1 os' ;; Ok (s2, r :: rs)
  end.

End GcArray.
Arguments gop T : clear implicits.
Arguments gstate T : clear implicits.
Arguments gmem T : clear implicits.
Arguments block T : clear implicits.
Arguments gout T : clear implicits.
