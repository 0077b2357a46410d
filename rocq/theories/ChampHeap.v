(** The CHAMP tree in counted memory: node allocation, copying and deletion
    (immer/detail/hamts/node.hpp) and the operations of immer/detail/hamts/champ.hpp,
    persistent and in place (transients and rvalues), with exceptions.

    A block is an inner node, the values of an inner node, or a collision node.  The pointers
    an inner node owns are its values block, if it has one, and its children.

    Simplifications: reference counting is the memory policy, so that can_mutate is
    refs().unique() (node.hpp:201-223; the ownee of no_transience_policy never allows
    mutation) and owned, owned_values, owned_values_safe (539-558) do nothing.  An exception
    can leave an allocation, the copy of an element and a call of Hash, Equal or the user
    function; moving an element does not throw.  A copy that throws has destroyed the
    elements it made (util.hpp:113-169), so only whether a range throws matters here. *)
From Coq Require Import List NArith Arith Bool.
From Verif Require Import Common Bits Champ RcHeap RcExn.
Import ListNotations.
Local Open Scope N_scope.

(** node.hpp:24-100: the three kinds of blocks; [hv] tells whether [values] is set. *)
Inductive cbody (T : Type) : Type :=
| BInner (nm dm : N) (hv : bool)
| BVals (vs : list T)
| BColl (vs : list T).
Arguments BInner {T}. Arguments BVals {T}. Arguments BColl {T}.

Section ChampHeap.
  Variable B : N.
  Context {T K : Type}.
  Variable key : T -> K.
  Variable khash : K -> N.
  Variable keq : K -> K -> bool.
  (** Whether copying an element can throw. *)
  Variable ct : bool.
  (** What an element is after it was moved from. *)
  Variable gone : T -> T.
  (** The static empty node, champ.hpp:140-148. *)
  Variable e0 : nat.

  Notation MM := (M (cbody T)).
  Notation XX := (X (cbody T)).
  Notation teqk := (@teqk T K key keq).
  Notation thash := (@thash T K key khash).
  Notation max_shift := (max_shift B).
  Notation max_depth := (max_depth B).

  (** *** Access *)
  (** nodemap(), datamap(), values and children(), node.hpp:118-175.  An array of children
      whose length is not children_count() is undefined. *)
  Definition load_inner (a : nat) : MM (N * N * option nat * list nat) :=
    c <~ load a ;;
    match c_body c, c_kids c with
    | BInner nm dm true, va :: cs =>
        if (length cs =? popcount nm)%nat then mret (nm, dm, Some va, cs) else mub
    | BInner nm dm false, cs =>
        if (length cs =? popcount nm)%nat then mret (nm, dm, None, cs) else mub
    | _, _ => mub
    end.
  (** values() with data_count() elements, node.hpp:118-128,153-157. *)
  Definition load_vals (dm : N) (vp : option nat) : MM (list T) :=
    match vp with
    | None => mub
    | Some va =>
        c <~ load va ;;
        match c_body c with
        | BVals vs => if (length vs =? popcount dm)%nat then mret vs else mub
        | _ => mub
        end
    end.
  (** [if (nv) ... values() ...]. *)
  Definition read_vals (dm : N) (vp : option nat) : MM (list T) :=
    if (popcount dm =? 0)%nat then mret [] else load_vals dm vp.
  (** collisions() and collision_count(), node.hpp:177-193. *)
  Definition load_coll (a : nat) : MM (list T) :=
    c <~ load a ;; match c_body c with BColl vs => mret vs | _ => mub end.

  Definition ptrs (vp : option nat) : list nat :=
    match vp with Some va => [va] | None => [] end.
  Definition is_some {A} (o : option A) : bool := match o with Some _ => true | None => false end.

  (** *** Deletion *)
  (** node.hpp:1078-1083. *)
  Definition delete_values (n : nat) (va : nat) : MM unit :=
    c <~ load va ;;
    match c_body c with
    | BVals vs => if (length vs =? n)%nat then free va else mub
    | _ => mub
    end.
  (** node.hpp:1085-1093. *)
  Definition delete_inner (a : nat) : MM unit :=
    ' (nm, dm, vp, cs) <~ load_inner a ;;
    _ <~ match vp with
         | Some va =>
             last <~ dec va ;;
             if last then delete_values (popcount dm) va else mret tt
         | None => mret tt
         end ;;
    free a.
  (** node.hpp:1095-1102. *)
  Definition delete_collision (a : nat) : MM unit := _ <~ load_coll a ;; free a.
  (** node.hpp:1104-1116; [d] is max_depth - s. *)
  Fixpoint delete_deep (d : nat) (a : nat) : MM unit :=
    match d with
    | O => delete_collision a
    | S d' =>
        ' (nm, dm, vp, cs) <~ load_inner a ;;
        _ <~ each_of (fun c => last <~ dec c ;; if last then delete_deep d' c else mret tt) cs ;;
        delete_inner a
    end.
  (** node.hpp:1118-1130; [f] bounds the depth. *)
  Fixpoint delete_deep_shift (f : nat) (a : nat) (s : N) : MM unit :=
    if s =? max_shift then delete_collision a
    else
      match f with
      | O => mub
      | S f' =>
          ' (nm, dm, vp, cs) <~ load_inner a ;;
          _ <~ each_of (fun c => last <~ dec c ;;
                                 if last then delete_deep_shift f' c (s + B) else mret tt) cs ;;
          delete_inner a
      end.

  (** *** Allocation *)
  (** heap::allocate *)
  Definition xalloc : XX unit := may_throw.
  (** A range of [n] copies. *)
  Definition xcopies (n : nat) : XX unit :=
    if ct && (0 <? n)%nat then may_throw else xret tt.
  (** make_inner_n(n, nv), node.hpp:255-270: one block or two; the first is freed when the
      second fails. *)
  Definition alloc_inner (nv : nat) : XX unit :=
    _ <- xalloc ;;; if (0 <? nv)%nat then xalloc else xret tt.
  (** The node those blocks become, once filled. *)
  Definition build_inner (nm dm : N) (vs : list T) (cs : list nat) : MM nat :=
    match vs with
    | [] => new (BInner nm dm false) cs
    | _ :: _ => va <~ new (BVals vs) [] ;; new (BInner nm dm true) (va :: cs)
    end.
  (** Steps common to the copies of inner nodes, node.hpp:522-929: allocate, copy [k] values,
      increment the children that are shared ([kept]). *)
  Definition copy_inner (k : nat) (nm dm : N) (vs : list T) (kept cs : list nat) : XX nat :=
    _ <- alloc_inner (length vs) ;;;
    _ <- xcopies k ;;;
    _ <- xm (each_of inc kept) ;;;
    xm (build_inner nm dm vs cs).
  (** Steps common to the moves of inner nodes, node.hpp:632-985: allocate, move the [k] values
      if the source owns them alone and copy them otherwise, then delete the source. *)
  Definition move_inner (a : nat) (vp : option nat) (k : nat) (nm dm : N) (vs : list T)
                        (cs : list nat) : XX nat :=
    _ <- alloc_inner (length vs) ;;;
    mutate_values <- xm (if (0 <? k)%nat
                         then match vp with Some va => unique va | None => mub end
                         else mret false) ;;;
    _ <- (if mutate_values : bool then xret tt else xcopies k) ;;;
    r <- xm (build_inner nm dm vs cs) ;;;
    _ <- xm (delete_inner a) ;;;
    xret r.

  (** node.hpp:338-362. *)
  Definition h_make_collision (v1 v2 : T) : XX nat :=
    _ <- xalloc ;;; xm (new (BColl [v1; v2]) []).
  (** node.hpp:390-412. *)
  Definition h_copy_collision_insert (a : nat) (v : T) : XX nat :=
    vs <- xm (load_coll a) ;;;
    _ <- xalloc ;;; _ <- xcopies (length vs) ;;;
    xm (new (BColl (v :: vs)) []).
  (** node.hpp:414-437. *)
  Definition h_move_collision_insert (a : nat) (v : T) : XX nat :=
    vs <- xm (load_coll a) ;;;
    _ <- xalloc ;;;
    r <- xm (new (BColl (v :: vs)) []) ;;;
    _ <- xm (delete_collision a) ;;; xret r.
  (** node.hpp:439-462. *)
  Definition h_copy_collision_remove (a : nat) (pos : nat) : XX nat :=
    vs <- xm (load_coll a) ;;;
    _ <- xalloc ;;; _ <- xcopies (length vs - 1) ;;;
    xm (new (BColl (firstn pos vs ++ skipn (S pos) vs)) []).
  (** node.hpp:464-488. *)
  Definition h_move_collision_remove (a : nat) (pos : nat) : XX nat :=
    vs <- xm (load_coll a) ;;;
    _ <- xalloc ;;;
    r <- xm (new (BColl (firstn pos vs ++ skipn (S pos) vs)) []) ;;;
    _ <- xm (delete_collision a) ;;; xret r.
  (** node.hpp:490-520.  When the copy of the second range throws, the innermost handler
      destroys everything made so far, the first element included, and the next one destroys
      the first element again: that is undefined. *)
  Definition h_copy_collision_replace (a : nat) (pos : nat) (v : T) : XX nat :=
    vs <- xm (load_coll a) ;;;
    _ <- xalloc ;;;
    _ <- xcopies pos ;;;
    _ <- xtry (xcopies (length vs - S pos)) mub ;;;
    xm (new (BColl (v :: firstn pos vs ++ skipn (S pos) vs)) []).

  (** node.hpp:522-537: the values block is shared. *)
  Definition h_copy_inner_replace (a : nat) (offset : nat) (child : nat) : XX nat :=
    ' (nm, dm, vp, cs) <- xm (load_inner a) ;;;
    _ <- xalloc ;;;
    _ <- xm (each_of inc (ptrs vp)) ;;;
    _ <- xm (each_of inc (firstn offset cs ++ skipn (S offset) cs)) ;;;
    xm (new (BInner nm dm (is_some vp)) (ptrs vp ++ update_at offset child cs)).
  (** node.hpp:560-587. *)
  Definition h_copy_inner_replace_value (a : nat) (offset : nat) (v : T) : XX nat :=
    ' (nm, dm, vp, cs) <- xm (load_inner a) ;;;
    vs <- xm (load_vals dm vp) ;;;
    copy_inner (length vs) nm dm (update_at offset v vs) cs cs.
  (** node.hpp:589-630. *)
  Definition h_copy_inner_replace_merged (a : nat) (bit : N) (voffset : nat) (child : nat) : XX nat :=
    ' (nm, dm, vp, cs) <- xm (load_inner a) ;;;
    vs <- xm (load_vals dm vp) ;;;
    let noffset := count_below nm bit in
    copy_inner (length vs - 1) (N.lor nm bit) (clear dm bit)
      (firstn voffset vs ++ skipn (S voffset) vs) cs
      (firstn noffset cs ++ child :: skipn noffset cs).
  (** node.hpp:632-682. *)
  Definition h_move_inner_replace_merged (a : nat) (bit : N) (voffset : nat) (child : nat) : XX nat :=
    ' (nm, dm, vp, cs) <- xm (load_inner a) ;;;
    vs <- xm (load_vals dm vp) ;;;
    let noffset := count_below nm bit in
    move_inner a vp (length vs - 1) (N.lor nm bit) (clear dm bit)
      (firstn voffset vs ++ skipn (S voffset) vs)
      (firstn noffset cs ++ child :: skipn noffset cs).
  (** node.hpp:684-732. *)
  Definition h_copy_inner_replace_inline (a : nat) (bit : N) (noffset : nat) (v : T) : XX nat :=
    ' (nm, dm, vp, cs) <- xm (load_inner a) ;;;
    vs <- xm (read_vals dm vp) ;;;
    let voffset := count_below dm bit in
    let cs' := firstn noffset cs ++ skipn (S noffset) cs in
    copy_inner (length vs) (clear nm bit) (N.lor dm bit)
      (firstn voffset vs ++ v :: skipn voffset vs) cs' cs'.
  (** node.hpp:734-794. *)
  Definition h_move_inner_replace_inline (a : nat) (bit : N) (noffset : nat) (v : T) : XX nat :=
    ' (nm, dm, vp, cs) <- xm (load_inner a) ;;;
    vs <- xm (read_vals dm vp) ;;;
    let voffset := count_below dm bit in
    move_inner a vp (length vs) (clear nm bit) (N.lor dm bit)
      (firstn voffset vs ++ v :: skipn voffset vs)
      (firstn noffset cs ++ skipn (S noffset) cs).
  (** node.hpp:796-830. *)
  Definition h_copy_inner_remove_value (a : nat) (bit : N) (voffset : nat) : XX nat :=
    ' (nm, dm, vp, cs) <- xm (load_inner a) ;;;
    vs <- xm (load_vals dm vp) ;;;
    copy_inner (length vs - 1) nm (clear dm bit)
      (firstn voffset vs ++ skipn (S voffset) vs) cs cs.
  (** node.hpp:832-889. *)
  Definition h_move_inner_remove_value (a : nat) (bit : N) (voffset : nat) : XX nat :=
    ' (nm, dm, vp, cs) <- xm (load_inner a) ;;;
    vs <- xm (load_vals dm vp) ;;;
    move_inner a vp (length vs - 1) nm (clear dm bit)
      (firstn voffset vs ++ skipn (S voffset) vs) cs.
  (** node.hpp:891-929. *)
  Definition h_copy_inner_insert_value (a : nat) (bit : N) (v : T) : XX nat :=
    ' (nm, dm, vp, cs) <- xm (load_inner a) ;;;
    vs <- xm (read_vals dm vp) ;;;
    let offset := count_below dm bit in
    copy_inner (length vs) nm (N.lor dm bit)
      (firstn offset vs ++ v :: skipn offset vs) cs cs.
  (** node.hpp:931-985. *)
  Definition h_move_inner_insert_value (a : nat) (bit : N) (v : T) : XX nat :=
    ' (nm, dm, vp, cs) <- xm (load_inner a) ;;;
    vs <- xm (read_vals dm vp) ;;;
    let offset := count_below dm bit in
    move_inner a vp (length vs) nm (N.lor dm bit)
      (firstn offset vs ++ v :: skipn offset vs) cs.

  (** node.hpp:987-1014 and 1016-1046. *)
  Fixpoint h_make_merged (f : nat) (shift : N) (v1 : T) (h1 : N) (v2 : T) (h2 : N) : XX nat :=
    if shift <? max_shift then
      match f with
      | O => xm mub
      | S f' =>
        let i1 := hash_part B h1 shift in
        let i2 := hash_part B h2 shift in
        if i1 =? i2 then
          merged <- h_make_merged f' (shift + B) v1 h1 v2 h2 ;;;
          xtry (_ <- xalloc ;;;
                xm (new (BInner (N.shiftl 1 (N.shiftr i1 shift)) 0 false) [merged]))
               (delete_deep_shift f' merged (shift + B))
        else
          let j1 := N.shiftr i1 shift in
          let j2 := N.shiftr i2 shift in
          _ <- alloc_inner 2 ;;;
          xm (build_inner 0 (N.lor (N.shiftl 1 j1) (N.shiftl 1 j2))
                (if j1 <? j2 then [v1; v2] else [v2; v1]) [])
      end
    else h_make_collision v1 v2.

  (** node.hpp:364-388; the result is the values block, which [a] now owns alone. *)
  Definition ensure_mutable_values (a : nat) : XX nat :=
    ' (nm, dm, vp, cs) <- xm (load_inner a) ;;;
    match vp with
    | None => xm mub
    | Some va =>
        mine <- xm (unique va) ;;;
        if mine : bool then xret va
        else
          vs <- xm (load_vals dm vp) ;;;
          _ <- xalloc ;;; _ <- xcopies (length vs) ;;;
          nxt <- xm (new (BVals vs) []) ;;;
          c <- xm (load a) ;;;
          _ <- xm (store a (mkCell (c_rc c) (c_body c) (nxt :: cs))) ;;;
          last <- xm (dec va) ;;;
          _ <- (if last : bool then xm (delete_values (popcount dm) va) else xret tt) ;;;
          xret nxt
    end.
  (** Writing into the elements of a block. *)
  Definition store_vals (va : nat) (vs : list T) : MM unit :=
    c <~ load va ;; store va (mkCell (c_rc c) (BVals vs) (c_kids c)).
  Definition store_coll (a : nat) (vs : list T) : MM unit :=
    c <~ load a ;; store a (mkCell (c_rc c) (BColl vs) (c_kids c)).
  (** [children()[offset] = child]. *)
  Definition store_child (a : nat) (offset : nat) (child : nat) : MM unit :=
    ' (nm, dm, vp, cs) <~ load_inner a ;;
    c <~ load a ;;
    store a (mkCell (c_rc c) (c_body c) (ptrs vp ++ update_at offset child cs)).
  (** [if (node->dec()) delete_deep_shift(node, shift)]. *)
  Definition drop_shift (f : nat) (a : nat) (s : N) : MM unit :=
    last <~ dec a ;; if last then delete_deep_shift f a s else mret tt.

  (** *** add, update and update_if_exists: champ.hpp:569-624, 749-846, 848-901.

      The three functions differ in the element they make: [found w] when the key is there
      with element [w] and [absent] when it is not; update_if_exists has [absent = None] and
      returns nullptr then.  [calls]: making the element calls the user function. *)
  Definition xcall (calls : bool) : XX unit := if calls then may_throw else xret tt.

  Section Upd.
  Variable k : K.
  Variable found : T -> T.
  Variable absent : option T.
  Variable calls : bool.

  Fixpoint do_upd_h (f : nat) (a : nat) (h shift : N) : XX (option (nat * bool)) :=
    if shift =? max_shift then
      vs <- xm (load_coll a) ;;;
      _ <- may_throw ;;;
      match find_index (fun w => teqk w k) vs with
      | Some pos =>
          w <- xm (mlift (rnth vs pos)) ;;;
          _ <- xcall calls ;;;
          r <- h_copy_collision_replace a pos (found w) ;;; xret (Some (r, false))
      | None =>
          match absent with
          | Some v => _ <- xcall calls ;;; r <- h_copy_collision_insert a v ;;; xret (Some (r, true))
          | None => xret None
          end
      end
    else
      match f with
      | O => xm mub
      | S f' =>
        ' (nm, dm, vp, cs) <- xm (load_inner a) ;;;
        let bit := N.shiftl 1 (hash_idx B h shift) in
        if has nm bit then
          let offset := count_below nm bit in
          c <- xm (mlift (rnth cs offset)) ;;;
          res <- do_upd_h f' c h (shift + B) ;;;
          match res with
          | Some (c', added) =>
              r <- xtry (h_copy_inner_replace a offset c') (delete_deep_shift f' c' (shift + B)) ;;;
              xret (Some (r, added))
          | None => xret None
          end
        else if has dm bit then
          let offset := count_below dm bit in
          vs <- xm (load_vals dm vp) ;;;
          w <- xm (mlift (rnth vs offset)) ;;;
          _ <- may_throw ;;;
          if teqk w k then
            _ <- xcall calls ;;;
            r <- h_copy_inner_replace_value a offset (found w) ;;; xret (Some (r, false))
          else
            match absent with
            | Some v =>
                _ <- xcall calls ;;; _ <- xcopies 1 ;;; _ <- may_throw ;;;
                child <- h_make_merged f' (shift + B) v h w (thash w) ;;;
                r <- xtry (h_copy_inner_replace_merged a bit offset child)
                          (delete_deep_shift f' child (shift + B)) ;;;
                xret (Some (r, true))
            | None => xret None
            end
        else
          match absent with
          | Some v => _ <- xcall calls ;;; r <- h_copy_inner_insert_value a bit v ;;; xret (Some (r, true))
          | None => xret None
          end
      end.

  (** In place: champ.hpp:641-735, 918-1022, 1047-1142.  The result is the node, whether the
      key was added, and whether [a] was reused or consumed. *)
  Fixpoint do_upd_mut (f : nat) (a : nat) (h shift : N) : XX (option (nat * bool * bool)) :=
    if shift =? max_shift then
      vs <- xm (load_coll a) ;;;
      _ <- may_throw ;;;
      match find_index (fun w => teqk w k) vs with
      | Some pos =>
          w <- xm (mlift (rnth vs pos)) ;;;
          mutate <- xm (unique a) ;;;
          if mutate : bool then
            _ <- xm (store_coll a (update_at pos (gone w) vs)) ;;;
            _ <- xcall calls ;;;
            _ <- xm (store_coll a (update_at pos (found w) vs)) ;;;
            xret (Some (a, false, true))
          else
            _ <- xcall calls ;;;
            r <- h_copy_collision_replace a pos (found w) ;;; xret (Some (r, false, false))
      | None =>
          match absent with
          | Some v =>
              _ <- xcall calls ;;;
              mutate <- xm (unique a) ;;;
              r <- (if mutate : bool then h_move_collision_insert a v
                    else h_copy_collision_insert a v) ;;;
              xret (Some (r, true, mutate))
          | None => xret None
          end
      end
    else
      match f with
      | O => xm mub
      | S f' =>
        ' (nm, dm, vp, cs) <- xm (load_inner a) ;;;
        let bit := N.shiftl 1 (hash_idx B h shift) in
        if has nm bit then
          let offset := count_below nm bit in
          child <- xm (mlift (rnth cs offset)) ;;;
          mutate <- xm (unique a) ;;;
          if mutate : bool then
            res <- do_upd_mut f' child h (shift + B) ;;;
            match res with
            | Some (c', added, mutated) =>
                _ <- xm (store_child a offset c') ;;;
                _ <- (if mutated : bool then xret tt else xm (drop_shift f' child (shift + B))) ;;;
                xret (Some (a, added, true))
            | None => xret None
            end
          else
            res <- do_upd_h f' child h (shift + B) ;;;
            match res with
            | Some (c', added) =>
                r <- xtry (h_copy_inner_replace a offset c')
                          (delete_deep_shift f' c' (shift + B)) ;;;
                xret (Some (r, added, false))
            | None => xret None
            end
        else if has dm bit then
          let offset := count_below dm bit in
          vs <- xm (load_vals dm vp) ;;;
          w <- xm (mlift (rnth vs offset)) ;;;
          _ <- may_throw ;;;
          if teqk w k then
            mutate <- xm (unique a) ;;;
            if mutate : bool then
              va <- ensure_mutable_values a ;;;
              _ <- xm (store_vals va (update_at offset (gone w) vs)) ;;;
              _ <- xcall calls ;;;
              _ <- xm (store_vals va (update_at offset (found w) vs)) ;;;
              xret (Some (a, false, true))
            else
              _ <- xcall calls ;;;
              r <- h_copy_inner_replace_value a offset (found w) ;;; xret (Some (r, false, false))
          else
            match absent with
            | Some v =>
                mutate <- xm (unique a) ;;;
                mutate_values <- xm (if mutate : bool
                                     then match vp with Some va => unique va | None => mub end
                                     else mret false) ;;;
                _ <- may_throw ;;;
                (* the arguments of make_merged_e: the element at [offset] is moved or copied *)
                _ <- (if mutate_values : bool
                      then match vp with
                           | Some va => xm (store_vals va (update_at offset (gone w) vs))
                           | None => xm mub
                           end
                      else xcopies 1) ;;;
                _ <- xcall calls ;;;
                child <- h_make_merged f' (shift + B) v h w (thash w) ;;;
                r <- xtry (if mutate : bool then h_move_inner_replace_merged a bit offset child
                           else h_copy_inner_replace_merged a bit offset child)
                          (delete_deep_shift f' child (shift + B)) ;;;
                xret (Some (r, true, mutate))
            | None => xret None
            end
        else
          match absent with
          | Some v =>
              mutate <- xm (unique a) ;;;
              _ <- xcall calls ;;;
              r <- (if mutate : bool then h_move_inner_insert_value a bit v
                    else h_copy_inner_insert_value a bit v) ;;;
              xret (Some (r, true, mutate))
          | None => xret None
          end
      end.
  End Upd.

  (** *** Erasure *)
  (** champ.hpp:1169-1199: a singleton is a pointer to an element, that is a block and an
      index in it. *)
  Inductive sub_res : Type :=
  | RNothing
  | RSing (p i : nat)
  | RTree (a : nat).

  Definition deref (p i : nat) : MM T :=
    c <~ load p ;;
    match c_body c with
    | BVals vs | BColl vs => mlift (rnth vs i)
    | BInner _ _ _ => mub
    end.

  (** champ.hpp:1200-1275. *)
  Fixpoint do_sub_h (f : nat) (a : nat) (k : K) (h shift : N) : XX sub_res :=
    if shift =? max_shift then
      vs <- xm (load_coll a) ;;;
      _ <- may_throw ;;;
      match find_index (fun w => teqk w k) vs with
      | Some pos =>
          if (2 <? length vs)%nat then r <- h_copy_collision_remove a pos ;;; xret (RTree r)
          else xret (RSing a (other pos))
      | None => xret RNothing
      end
    else
      match f with
      | O => xm mub
      | S f' =>
        ' (nm, dm, vp, cs) <- xm (load_inner a) ;;;
        let bit := N.shiftl 1 (hash_idx B h shift) in
        if has nm bit then
          let offset := count_below nm bit in
          c <- xm (mlift (rnth cs offset)) ;;;
          res <- do_sub_h f' c k h (shift + B) ;;;
          match res with
          | RNothing => xret RNothing
          | RSing p i =>
              if (dm =? 0) && (popcount nm =? 1)%nat && (0 <? shift) then xret (RSing p i)
              else
                v <- xm (deref p i) ;;;
                _ <- xcopies 1 ;;;
                r <- h_copy_inner_replace_inline a bit offset v ;;; xret (RTree r)
          | RTree c' =>
              r <- xtry (h_copy_inner_replace a offset c') (delete_deep_shift f' c' (shift + B)) ;;;
              xret (RTree r)
          end
        else if has dm bit then
          let offset := count_below dm bit in
          vs <- xm (load_vals dm vp) ;;;
          w <- xm (mlift (rnth vs offset)) ;;;
          _ <- may_throw ;;;
          if teqk w k then
            let nv := popcount dm in
            if negb (nm =? 0) || (2 <? nv)%nat then
              r <- h_copy_inner_remove_value a bit offset ;;; xret (RTree r)
            else if (nv =? 2)%nat then
              if 0 <? shift then
                match vp with Some va => xret (RSing va (other offset)) | None => xm mub end
              else
                x <- xm (mlift (rnth vs (other offset))) ;;;
                _ <- xcopies 1 ;;;
                _ <- alloc_inner 1 ;;;
                r <- xm (build_inner 0 (clear dm bit) [x] []) ;;; xret (RTree r)
            else if shift =? 0 then _ <- xm (inc e0) ;;; xret (RTree e0)
            else xm mub
          else xret RNothing
        else xret RNothing
      end.

  (** champ.hpp:1292-1338.  [Own v] is an element in the caller's [store], [At p i] a pointer
      into a node. *)
  Inductive sing : Type := Own (v : T) | At (p i : nat).
  Inductive sub_mut_res : Type :=
  | MNothing
  | MSing (s : sing) (mutated : bool)
  | MTree (a : nat) (mutated : bool).

  (** sub_result_mut(sub_result), champ.hpp:1301-1306. *)
  Definition of_sub (r : sub_res) : sub_mut_res :=
    match r with
    | RNothing => MNothing
    | RSing p i => MSing (At p i) false
    | RTree a => MTree a false
    end.

  (** champ.hpp:1340-1475. *)
  Fixpoint do_sub_mut (f : nat) (a : nat) (k : K) (h shift : N) : XX sub_mut_res :=
    mutate <- xm (unique a) ;;;
    if shift =? max_shift then
      vs <- xm (load_coll a) ;;;
      _ <- may_throw ;;;
      match find_index (fun w => teqk w k) vs with
      | Some pos =>
          if (length vs <=? 2)%nat then
            if mutate : bool then
              w <- xm (mlift (rnth vs (other pos))) ;;;
              _ <- xm (delete_collision a) ;;;
              xret (MSing (Own w) true)
            else xret (MSing (At a (other pos)) false)
          else
            r <- (if mutate : bool then h_move_collision_remove a pos
                  else h_copy_collision_remove a pos) ;;;
            xret (MTree r mutate)
      | None => xret MNothing
      end
    else
      match f with
      | O => xm mub
      | S f' =>
        ' (nm, dm, vp, cs) <- xm (load_inner a) ;;;
        let bit := N.shiftl 1 (hash_idx B h shift) in
        if has nm bit then
          let offset := count_below nm bit in
          child <- xm (mlift (rnth cs offset)) ;;;
          res <- (if mutate : bool then do_sub_mut f' child k h (shift + B)
                  else r <- do_sub_h f' child k h (shift + B) ;;; xret (of_sub r)) ;;;
          match res with
          | MNothing => xret MNothing
          | MSing s mutated =>
              if (dm =? 0) && (popcount nm =? 1)%nat && (0 <? shift) then
                _ <- (if mutate : bool then
                        _ <- xm (delete_inner a) ;;;
                        (if mutated : bool then xret tt
                         else xm (drop_shift f' child (shift + B)))
                      else xret tt) ;;;
                xret (MSing s mutate)
              else
                v <- match s with
                     | Own v => xret v
                     | At p i => v <- xm (deref p i) ;;; _ <- xcopies 1 ;;; xret v
                     end ;;;
                r <- (if mutate : bool then h_move_inner_replace_inline a bit offset v
                      else h_copy_inner_replace_inline a bit offset v) ;;;
                _ <- (if negb mutated && mutate then xm (drop_shift f' child (shift + B))
                      else xret tt) ;;;
                xret (MTree r mutate)
          | MTree c' mutated =>
              if mutate : bool then
                _ <- xm (store_child a offset c') ;;;
                _ <- (if mutated : bool then xret tt else xm (drop_shift f' child (shift + B))) ;;;
                xret (MTree a true)
              else
                r <- xtry (h_copy_inner_replace a offset c')
                          (delete_deep_shift f' c' (shift + B)) ;;;
                xret (MTree r false)
          end
        else if has dm bit then
          let offset := count_below dm bit in
          vs <- xm (load_vals dm vp) ;;;
          w <- xm (mlift (rnth vs offset)) ;;;
          mutate_values <- xm (if mutate : bool
                               then match vp with Some va => unique va | None => mub end
                               else mret false) ;;;
          _ <- may_throw ;;;
          if teqk w k then
            let nv := popcount dm in
            if negb (nm =? 0) || (2 <? nv)%nat then
              r <- (if mutate : bool then h_move_inner_remove_value a bit offset
                    else h_copy_inner_remove_value a bit offset) ;;;
              xret (MTree r mutate)
            else if (nv =? 2)%nat then
              x <- xm (mlift (rnth vs (other offset))) ;;;
              match vp with
              | None => xm mub
              | Some va =>
                if 0 <? shift then
                  if mutate_values : bool then
                    _ <- xm (delete_inner a) ;;; xret (MSing (Own x) true)
                  else xret (MSing (At va (other offset)) false)
                else
                  _ <- (if mutate_values : bool
                        then xm (store_vals va (update_at (other offset) (gone x) vs))
                        else xcopies 1) ;;;
                  _ <- alloc_inner 1 ;;;
                  r <- xm (build_inner 0 (clear dm bit) [x] []) ;;;
                  _ <- (if mutate : bool then xm (delete_inner a) else xret tt) ;;;
                  xret (MTree r mutate)
              end
            else if shift =? 0 then
              _ <- (if mutate : bool then xm (delete_inner a) else xret tt) ;;;
              _ <- xm (inc e0) ;;; xret (MTree e0 mutate)
            else xm mub
          else xret MNothing
        else xret MNothing
      end.

  (** *** The container *)
  Record hchamp : Type := mkH { h_root : nat; h_size : N }.

  (** champ.hpp:533-561. *)
  Fixpoint get_loop_h (f : nat) (a : nat) (h : N) (k : K) : XX (option T) :=
    match f with
    | O => vs <- xm (load_coll a) ;;; _ <- may_throw ;;; xret (find (fun v => teqk v k) vs)
    | S f' =>
        ' (nm, dm, vp, cs) <- xm (load_inner a) ;;;
        let bit := N.shiftl 1 (N.land h (mask B)) in
        if has nm bit then
          c <- xm (mlift (rnth cs (count_below nm bit))) ;;;
          get_loop_h f' c (N.shiftr h B) k
        else if has dm bit then
          vs <- xm (load_vals dm vp) ;;;
          v <- xm (mlift (rnth vs (count_below dm bit))) ;;;
          _ <- may_throw ;;;
          xret (if teqk v k then Some v else None)
        else xret None
    end.
  Definition get_h (c : hchamp) (k : K) : XX (option T) :=
    _ <- may_throw ;;; get_loop_h max_depth (h_root c) (khash k) k.

  (** champ.hpp:140-154. *)
  Definition empty_h : MM hchamp := _ <~ inc e0 ;; mret (mkH e0 0).
  (** champ.hpp:155-159. *)
  Definition copy_h (c : hchamp) : MM hchamp := _ <~ inc (h_root c) ;; mret c.
  (** champ.hpp:185-193. *)
  Definition destroy_h (c : hchamp) : MM unit :=
    last <~ dec (h_root c) ;; if last then delete_deep max_depth (h_root c) else mret tt.

  (** champ.hpp:626-632, 834-846, 903-914: the hash is computed first; without a node
      (update_if_exists) the result shares the root. *)
  Definition upd_h (k : K) (found : T -> T) (absent : option T) (calls : bool) (c : hchamp) : XX hchamp :=
    _ <- may_throw ;;;
    res <- do_upd_h k found absent calls max_depth (h_root c) (khash k) 0 ;;;
    match res with
    | Some (r, added) => xret (mkH r (h_size c + (if added : bool then 1 else 0)))
    | None => xm (copy_h c)
    end.
  (** champ.hpp:737-745, 1024-1038, 1144-1157. *)
  Definition upd_mut (k : K) (found : T -> T) (absent : option T) (calls : bool) (c : hchamp) : XX hchamp :=
    _ <- may_throw ;;;
    res <- do_upd_mut k found absent calls max_depth (h_root c) (khash k) 0 ;;;
    match res with
    | Some (r, added, mutated) =>
        _ <- (if mutated : bool then xret tt else xm (destroy_h c)) ;;;
        xret (mkH r (h_size c + (if added : bool then 1 else 0)))
    | None => xret c
    end.
  (** champ.hpp:1277-1290. *)
  Definition sub_h (k : K) (c : hchamp) : XX hchamp :=
    _ <- may_throw ;;;
    res <- do_sub_h max_depth (h_root c) k (khash k) 0 ;;;
    match res with
    | RNothing => xm (copy_h c)
    | RTree r => xret (mkH r (h_size c - 1))
    | RSing _ _ => xm mub
    end.
  (** champ.hpp:1479-1497. *)
  Definition sub_mut (k : K) (c : hchamp) : XX hchamp :=
    _ <- may_throw ;;;
    res <- do_sub_mut max_depth (h_root c) k (khash k) 0 ;;;
    match res with
    | MNothing => xret c
    | MTree r mutated =>
        _ <- (if mutated : bool then xret tt else xm (destroy_h c)) ;;;
        xret (mkH r (h_size c - 1))
    | MSing _ _ => xm mub
    end.
End ChampHeap.
