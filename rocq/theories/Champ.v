(** Value-level model of the CHAMP tree behind immer::map, immer::set and
    immer::table: immer/detail/hamts/{bits,node,champ,champ_iterator}.hpp.

    A node is modelled by its contents; persistent operations never write to a
    published node, so this loses only addresses (pointer equality is a section
    variable where the code uses it) and reference counts (see the heap models). *)
From Coq Require Import List NArith Arith Bool.
From Verif Require Import Common Bits.
Import ListNotations.
Local Open Scope N_scope.

(** immer/detail/hamts/node.hpp:24-100: a node is an inner node (nodemap, datamap,
    packed values, packed children) or a collision node (an array of values). *)
Inductive node (T : Type) : Type :=
| Inner (nodemap datamap : N) (values : list T) (children : list (node T))
| Coll (values : list T).
Arguments Inner {T}.
Arguments Coll {T}.

Section Champ.
  (** Branching bits (template parameter B). *)
  Variable B : N.
  (** Element type, key type; [key] stands for KeyFn / pair::first / identity. *)
  Context {T K : Type}.
  Variable key : T -> K.
  (** User supplied Hash and Equal, on keys. *)
  Variable khash : K -> N.
  Variable keq : K -> K -> bool.

  (** bits.hpp:53-63. *)
  Definition branches : N := N.shiftl 1 B.
  Definition mask : N := branches - 1.
  Definition max_depth : nat := N.to_nat ((64 + B - 1) / B).
  Definition max_shift : N := N.of_nat max_depth * B.

  (** Hash{}(value), map.hpp hash_key / table.hpp hash_key. *)
  Definition thash (v : T) : N := khash (key v).
  (** Equal{}(value, key) and Equal{}(value, value). *)
  Definition teqk (v : T) (k : K) : bool := keq (key v) k.

  (** [(hash & (mask<B> << shift))], e.g. champ.hpp:582, node.hpp:991. *)
  Definition hash_part (h shift : N) : N := N.land h (w64 (N.shiftl mask shift)).
  (** [idx = (hash & (mask<B> << shift)) >> shift], champ.hpp:582. *)
  Definition hash_idx (h shift : N) : N := N.shiftr (hash_part h shift) shift.

  (** node.hpp:159-163,171-175: children_count(bit), data_count(bit). *)
  Definition count_below (bm bit : N) : nat := popcount (N.land bm (bit - 1)).
  (** [bm & bit] as a condition. *)
  Definition has (bm bit : N) : bool := negb (N.land bm bit =? 0).
  (** [bm & ~bit]. *)
  Definition clear (bm bit : N) : N := N.ldiff bm bit.

  (** Reading [n] elements of an array from its start. *)
  Definition rtake {A} (n : nat) (l : list A) : res (list A) :=
    if (n <=? length l)%nat then Ok (firstn n l) else UB.

  (** champ.hpp:140-148, empty(). *)
  Definition empty_node : node T := Inner 0 0 [] [].

  (** *** Node copies (node.hpp). *)

  (** node.hpp:338-362, make_collision. *)
  Definition make_collision (v1 v2 : T) : node T := Coll [v1; v2].
  (** node.hpp:390-412: the new value goes to the front. *)
  Definition copy_collision_insert (vs : list T) (v : T) : node T := Coll (v :: vs).
  (** node.hpp:439-462. *)
  Definition copy_collision_remove (vs : list T) (pos : nat) : node T :=
    Coll (firstn pos vs ++ skipn (S pos) vs).
  (** node.hpp:490-520: the replacement goes to the front. *)
  Definition copy_collision_replace (vs : list T) (pos : nat) (v : T) : node T :=
    Coll (v :: firstn pos vs ++ skipn (S pos) vs).

  (** node.hpp:522-537. *)
  Definition copy_inner_replace (nm dm : N) (vs : list T) (cs : list (node T))
             (offset : nat) (child : node T) : node T :=
    Inner nm dm vs (update_at offset child cs).
  (** node.hpp:560-587. *)
  Definition copy_inner_replace_value (nm dm : N) (vs : list T) (cs : list (node T))
             (offset : nat) (v : T) : node T :=
    Inner nm dm (update_at offset v vs) cs.
  (** node.hpp:589-630. *)
  Definition copy_inner_replace_merged (nm dm : N) (vs : list T) (cs : list (node T))
             (bit : N) (voffset : nat) (child : node T) : node T :=
    let noffset := count_below nm bit in
    Inner (N.lor nm bit) (clear dm bit)
          (firstn voffset vs ++ skipn (S voffset) vs)
          (firstn noffset cs ++ child :: skipn noffset cs).
  (** node.hpp:684-732. *)
  Definition copy_inner_replace_inline (nm dm : N) (vs : list T) (cs : list (node T))
             (bit : N) (noffset : nat) (v : T) : node T :=
    let voffset := count_below dm bit in
    Inner (clear nm bit) (N.lor dm bit)
          (firstn voffset vs ++ v :: skipn voffset vs)
          (firstn noffset cs ++ skipn (S noffset) cs).
  (** node.hpp:796-830. *)
  Definition copy_inner_remove_value (nm dm : N) (vs : list T) (cs : list (node T))
             (bit : N) (voffset : nat) : node T :=
    Inner nm (clear dm bit) (firstn voffset vs ++ skipn (S voffset) vs) cs.
  (** node.hpp:891-929. *)
  Definition copy_inner_insert_value (nm dm : N) (vs : list T) (cs : list (node T))
             (bit : N) (v : T) : node T :=
    let offset := count_below dm bit in
    Inner nm (N.lor dm bit) (firstn offset vs ++ v :: skipn offset vs) cs.

  (** node.hpp:274-325, make_inner_n(n, idx, value/child...). *)
  Definition make_inner_child (idx : N) (child : node T) : node T :=
    Inner (N.shiftl 1 idx) 0 [] [child].
  Definition make_inner_value (datamap : N) (v : T) : node T :=
    Inner 0 datamap [v] [].
  Definition make_inner_two (idx1 : N) (v1 : T) (idx2 : N) (v2 : T) : node T :=
    Inner 0 (N.lor (N.shiftl 1 idx1) (N.shiftl 1 idx2))
          (if idx1 <? idx2 then [v1; v2] else [v2; v1]) [].

  (** node.hpp:987-1014, make_merged.  [fuel] bounds the recursion; running out is
      reported as UB and proved impossible. *)
  Fixpoint make_merged (fuel : nat) (shift : N) (v1 : T) (h1 : N) (v2 : T) (h2 : N)
    : res (node T) :=
    if shift <? max_shift then
      match fuel with
      | O => UB
      | S f =>
        let i1 := hash_part h1 shift in
        let i2 := hash_part h2 shift in
        if i1 =? i2 then
          m <- make_merged f (shift + B) v1 h1 v2 h2 ;;
          Ok (make_inner_child (N.shiftr i1 shift) m)
        else Ok (make_inner_two (N.shiftr i1 shift) v1 (N.shiftr i2 shift) v2)
      end
    else Ok (make_collision v1 v2).

  (** *** Lookup: champ.hpp:533-561.  The loop runs max_depth times at most. *)
  Fixpoint get_loop (fuel : nat) (n : node T) (h : N) (k : K) : res (option T) :=
    match fuel with
    | O =>
      match n with
      | Coll vs => Ok (find (fun v => teqk v k) vs)
      | Inner _ _ _ _ => UB
      end
    | S f =>
      match n with
      | Inner nm dm vs cs =>
        let bit := N.shiftl 1 (N.land h mask) in
        if has nm bit then
          c <- rnth cs (count_below nm bit) ;;
          get_loop f c (N.shiftr h B) k
        else if has dm bit then
          v <- rnth vs (count_below dm bit) ;;
          Ok (if teqk v k then Some v else None)
        else Ok None
      | Coll _ => UB
      end
    end.

  (** *** Insertion: champ.hpp:569-632. *)
  Fixpoint do_add (fuel : nat) (n : node T) (v : T) (h shift : N)
    : res (node T * bool) :=
    if shift =? max_shift then
      match n with
      | Coll vs =>
        match find_index (fun w => teqk w (key v)) vs with
        | Some pos => Ok (copy_collision_replace vs pos v, false)
        | None => Ok (copy_collision_insert vs v, true)
        end
      | Inner _ _ _ _ => UB
      end
    else
      match fuel, n with
      | S f, Inner nm dm vs cs =>
        let bit := N.shiftl 1 (hash_idx h shift) in
        if has nm bit then
          let offset := count_below nm bit in
          c <- rnth cs offset ;;
          '(c', added) <- do_add f c v h (shift + B) ;;
          Ok (copy_inner_replace nm dm vs cs offset c', added)
        else if has dm bit then
          let offset := count_below dm bit in
          w <- rnth vs offset ;;
          if teqk w (key v) then
            Ok (copy_inner_replace_value nm dm vs cs offset v, false)
          else
            child <- make_merged f (shift + B) v h w (thash w) ;;
            Ok (copy_inner_replace_merged nm dm vs cs bit offset child, true)
        else Ok (copy_inner_insert_value nm dm vs cs bit v, true)
      | _, _ => UB
      end.

  Record champ : Type := mkChamp { root : node T; size : N }.

  Definition empty : champ := mkChamp empty_node 0.

  (** champ.hpp:533 (set.hpp / map.hpp / table.hpp find). *)
  Definition get (c : champ) (k : K) : res (option T) :=
    get_loop max_depth (root c) (khash k) k.

  (** champ.hpp:626-632. *)
  Definition add (c : champ) (v : T) : res champ :=
    '(n, added) <- do_add max_depth (root c) v (thash v) 0 ;;
    Ok (mkChamp n (size c + (if added then 1 else 0))).

  (** *** update: champ.hpp:749-846; Project, Default, Combine and the user
      function are arguments. *)
  Context {V : Type}.
  Variable project : T -> V.
  Variable combine : K -> V -> T.

  Fixpoint do_update (fuel : nat) (n : node T) (k : K) (fn : V -> V) (dflt : V)
           (h shift : N) : res (node T * bool) :=
    if shift =? max_shift then
      match n with
      | Coll vs =>
        match find_index (fun w => teqk w k) vs with
        | Some pos =>
          w <- rnth vs pos ;;
          Ok (copy_collision_replace vs pos (combine k (fn (project w))), false)
        | None => Ok (copy_collision_insert vs (combine k (fn dflt)), true)
        end
      | Inner _ _ _ _ => UB
      end
    else
      match fuel, n with
      | S f, Inner nm dm vs cs =>
        let bit := N.shiftl 1 (hash_idx h shift) in
        if has nm bit then
          let offset := count_below nm bit in
          c <- rnth cs offset ;;
          '(c', added) <- do_update f c k fn dflt h (shift + B) ;;
          Ok (copy_inner_replace nm dm vs cs offset c', added)
        else if has dm bit then
          let offset := count_below dm bit in
          w <- rnth vs offset ;;
          if teqk w k then
            Ok (copy_inner_replace_value nm dm vs cs offset
                  (combine k (fn (project w))), false)
          else
            child <- make_merged f (shift + B) (combine k (fn dflt)) h w (thash w) ;;
            Ok (copy_inner_replace_merged nm dm vs cs bit offset child, true)
        else Ok (copy_inner_insert_value nm dm vs cs bit (combine k (fn dflt)), true)
      | _, _ => UB
      end.

  (** champ.hpp:834-846. *)
  Definition update (c : champ) (k : K) (fn : V -> V) (dflt : V) : res champ :=
    '(n, added) <- do_update max_depth (root c) k fn dflt (khash k) 0 ;;
    Ok (mkChamp n (size c + (if added then 1 else 0))).

  (** champ.hpp:848-901; nullptr is [None]. *)
  Fixpoint do_update_if_exists (fuel : nat) (n : node T) (k : K) (fn : V -> V)
           (h shift : N) : res (option (node T)) :=
    if shift =? max_shift then
      match n with
      | Coll vs =>
        match find_index (fun w => teqk w k) vs with
        | Some pos =>
          w <- rnth vs pos ;;
          Ok (Some (copy_collision_replace vs pos (combine k (fn (project w)))))
        | None => Ok None
        end
      | Inner _ _ _ _ => UB
      end
    else
      match fuel, n with
      | S f, Inner nm dm vs cs =>
        let bit := N.shiftl 1 (hash_idx h shift) in
        if has nm bit then
          let offset := count_below nm bit in
          c <- rnth cs offset ;;
          r <- do_update_if_exists f c k fn h (shift + B) ;;
          Ok (match r with
              | Some c' => Some (copy_inner_replace nm dm vs cs offset c')
              | None => None
              end)
        else if has dm bit then
          let offset := count_below dm bit in
          w <- rnth vs offset ;;
          Ok (if teqk w k then
                Some (copy_inner_replace_value nm dm vs cs offset
                        (combine k (fn (project w))))
              else None)
        else Ok None
      | _, _ => UB
      end.

  (** champ.hpp:903-914. *)
  Definition update_if_exists (c : champ) (k : K) (fn : V -> V) : res champ :=
    r <- do_update_if_exists max_depth (root c) k fn (khash k) 0 ;;
    Ok (match r with
        | Some n => mkChamp n (size c)
        | None => c
        end).

  (** *** Erasure: champ.hpp:1169-1290. *)
  Inductive sub_result : Type :=
  | SubNothing
  | SubSingleton (v : T)
  | SubTree (n : node T).

  (** [node->values() + !offset]. *)
  Definition other (offset : nat) : nat := match offset with O => 1 | S _ => 0 end.

  Fixpoint do_sub (fuel : nat) (n : node T) (k : K) (h shift : N) : res sub_result :=
    if shift =? max_shift then
      match n with
      | Coll vs =>
        match find_index (fun w => teqk w k) vs with
        | Some pos =>
          if (2 <? length vs)%nat then Ok (SubTree (copy_collision_remove vs pos))
          else w <- rnth vs (other pos) ;; Ok (SubSingleton w)
        | None => Ok SubNothing
        end
      | Inner _ _ _ _ => UB
      end
    else
      match fuel, n with
      | S f, Inner nm dm vs cs =>
        let bit := N.shiftl 1 (hash_idx h shift) in
        if has nm bit then
          let offset := count_below nm bit in
          c <- rnth cs offset ;;
          r <- do_sub f c k h (shift + B) ;;
          match r with
          | SubNothing => Ok SubNothing
          | SubSingleton v =>
            if (dm =? 0) && (popcount nm =? 1)%nat && (0 <? shift)
            then Ok (SubSingleton v)
            else Ok (SubTree (copy_inner_replace_inline nm dm vs cs bit offset v))
          | SubTree c' => Ok (SubTree (copy_inner_replace nm dm vs cs offset c'))
          end
        else if has dm bit then
          let offset := count_below dm bit in
          w <- rnth vs offset ;;
          if teqk w k then
            let nv := popcount dm in
            if negb (nm =? 0) || (2 <? nv)%nat then
              Ok (SubTree (copy_inner_remove_value nm dm vs cs bit offset))
            else if (nv =? 2)%nat then
              x <- rnth vs (other offset) ;;
              if 0 <? shift then Ok (SubSingleton x)
              else Ok (SubTree (make_inner_value (clear dm bit) x))
            else if shift =? 0 then Ok (SubTree empty_node)
            else UB (* assert(shift == 0), champ.hpp:1268 *)
          else Ok SubNothing
        else Ok SubNothing
      | _, _ => UB
      end.

  (** champ.hpp:1277-1290; the singleton case is IMMER_UNREACHABLE. *)
  Definition sub (c : champ) (k : K) : res champ :=
    r <- do_sub max_depth (root c) k (khash k) 0 ;;
    match r with
    | SubNothing => Ok c
    | SubTree n => Ok (mkChamp n (size c - 1))
    | SubSingleton _ => UB
    end.

  (** *** Traversal: champ.hpp:308-333.  The result lists the chunks passed to the
      callback.  [d] is max_depth - depth. *)
  Fixpoint chunks (d : nat) (n : node T) : res (list (list T)) :=
    match d, n with
    | S d', Inner nm dm vs cs =>
      own <- (if dm =? 0 then Ok [] else l <- rtake (popcount dm) vs ;; Ok [l]) ;;
      cs' <- (if nm =? 0 then Ok [] else rtake (popcount nm) cs) ;;
      rest <- (fix loop (l : list (node T)) : res (list (list T)) :=
                 match l with
                 | [] => Ok []
                 | c :: l' => a <- chunks d' c ;; b <- loop l' ;; Ok (a ++ b)
                 end) cs' ;;
      Ok (own ++ rest)
    | O, Coll vs => Ok [vs]
    | _, _ => UB
    end.

  Definition for_each_chunk (c : champ) : res (list (list T)) :=
    chunks max_depth (root c).

  (** *** Equality: champ.hpp:1499-1547.  [ptr_eq] is pointer equality of nodes,
      [veq] the Eq template argument. *)
  Variable ptr_eq : node T -> node T -> bool.
  Variable veq : T -> T -> bool.

  (** std::equal(a, a+n, b, Eq), champ.hpp:1527-1531. *)
  Fixpoint equals_values (n : nat) (a b : list T) : res bool :=
    match n with
    | O => Ok true
    | S n' =>
      match a, b with
      | x :: a', y :: b' => if veq x y then equals_values n' a' b' else Ok false
      | _, _ => UB
      end
    end.

  (** champ.hpp:1533-1547. *)
  Definition equals_collisions (a b : list T) : bool :=
    forallb (fun x => existsb (fun y => veq x y) b) a.

  Fixpoint equals_tree (d : nat) (a b : node T) : res bool :=
    if ptr_eq a b then Ok true
    else
      match d, a, b with
      | O, Coll va, Coll vb =>
        Ok ((length va =? length vb)%nat && equals_collisions va vb)
      | S d', Inner nma dma va ca, Inner nmb dmb vb cb =>
        if negb (nma =? nmb) || negb (dma =? dmb) then Ok false
        else
          ca' <- rtake (popcount nma) ca ;;
          r <- (fix loop (la lb : list (node T)) : res bool :=
                  match la with
                  | [] => Ok true
                  | x :: la' =>
                    match lb with
                    | y :: lb' =>
                      r <- equals_tree d' x y ;;
                      if r then loop la' lb' else Ok false
                    | [] => UB
                    end
                  end) ca' cb ;;
          if r then equals_values (popcount dma) va vb else Ok false
      | _, _, _ => UB
      end.

  Definition equals (a b : champ) : res bool :=
    if size a =? size b then equals_tree max_depth (root a) (root b) else Ok false.

  (** *** Diff: champ.hpp:335-531.  The result lists the calls made to the differ;
      [keq] is Equal and [veq] EqualValue. *)
  Inductive event : Type :=
  | Added (v : T)
  | Removed (v : T)
  | Changed (old new : T).

  (** champ.hpp:361-369 / 380-388: added/removed for every value of a subtree. *)
  Definition all_events (f : T -> event) (cks : list (list T)) : list event :=
    map f (concat cks).

  (** champ.hpp:431-445. *)
  Definition diff_data_node (old : T) (cks : list (list T)) : list event :=
    let vs := concat cks in
    flat_map (fun w => if keq (key old) (key w)
                       then (if veq old w then [] else [Changed old w])
                       else [Added w]) vs
    ++ (if existsb (fun w => keq (key old) (key w)) vs then [] else [Removed old]).

  (** champ.hpp:460-474. *)
  Definition diff_node_data (cks : list (list T)) (new : T) : list event :=
    let vs := concat cks in
    flat_map (fun w => if keq (key w) (key new)
                       then (if veq w new then [] else [Changed w new])
                       else [Removed w]) vs
    ++ (if existsb (fun w => keq (key w) (key new)) vs then [] else [Added new]).

  (** champ.hpp:477-494. *)
  Definition diff_data_data (old new : T) : list event :=
    if negb (keq (key old) (key new)) then [Removed old; Added new]
    else if veq old new then [] else [Changed old new].

  (** champ.hpp:496-531. *)
  Definition diff_collisions (ov nv : list T) : list event :=
    flat_map (fun o => match find (fun w => keq (key o) (key w)) nv with
                       | Some w => if veq o w then [] else [Changed o w]
                       | None => [Removed o]
                       end) ov
    ++ flat_map (fun w => if existsb (fun o => keq (key o) (key w)) ov
                          then [] else [Added w]) nv.

  (** Sequencing of loops over bits. *)
  Fixpoint rconcat_map {A E} (f : A -> res (list E)) (l : list A) : res (list E) :=
    match l with
    | [] => Ok []
    | x :: l' => a <- f x ;; b <- rconcat_map f l' ;; Ok (a ++ b)
    end.

  Definition rset_bits (bm : N) : res (list N) :=
    match set_bits bm with Some l => Ok l | None => UB end.

  Fixpoint diff_node (d : nat) (o n : node T) : res (list event) :=
    if ptr_eq o n then Ok []
    else
      match d, o, n with
      | S d', Inner onm odm ov oc, Inner nnm ndm nv nc =>
        let old_bits := N.lor onm odm in
        let new_bits := N.lor nnm ndm in
        let changes := N.lxor old_bits new_bits in
        abits <- rset_bits (N.land new_bits changes) ;;
        added <- rconcat_map (fun bit =>
          if has nnm bit then
            c <- rnth nc (count_below nnm bit) ;;
            cks <- chunks d' c ;; Ok (all_events Added cks)
          else if has ndm bit then
            v <- rnth nv (count_below ndm bit) ;; Ok [Added v]
          else Ok []) abits ;;
        rbits <- rset_bits (N.land old_bits changes) ;;
        removed <- rconcat_map (fun bit =>
          if has onm bit then
            c <- rnth oc (count_below onm bit) ;;
            cks <- chunks d' c ;; Ok (all_events Removed cks)
          else if has odm bit then
            v <- rnth ov (count_below odm bit) ;; Ok [Removed v]
          else Ok []) rbits ;;
        bbits <- rset_bits (N.land old_bits new_bits) ;;
        both <- rconcat_map (fun bit =>
          if has onm bit && has nnm bit then
            oc' <- rnth oc (count_below onm bit) ;;
            nc' <- rnth nc (count_below nnm bit) ;;
            diff_node d' oc' nc'
          else if has odm bit && has nnm bit then
            ov' <- rnth ov (count_below odm bit) ;;
            nc' <- rnth nc (count_below nnm bit) ;;
            cks <- chunks d' nc' ;; Ok (diff_data_node ov' cks)
          else if has onm bit && has ndm bit then
            oc' <- rnth oc (count_below onm bit) ;;
            nv' <- rnth nv (count_below ndm bit) ;;
            cks <- chunks d' oc' ;; Ok (diff_node_data cks nv')
          else if has odm bit && has ndm bit then
            ov' <- rnth ov (count_below odm bit) ;;
            nv' <- rnth nv (count_below ndm bit) ;;
            Ok (diff_data_data ov' nv')
          else Ok []) bbits ;;
        Ok (added ++ removed ++ both)
      | O, Coll ov, Coll nv => Ok (diff_collisions ov nv)
      | _, _, _ => UB
      end.

  Definition diff (a b : champ) : res (list event) :=
    diff_node max_depth (root a) (root b).

  (** *** Iterator: champ_iterator.hpp.  [it_rem] is the range [cur_, end_);
      [it_path] is path_[depth_], ..., path_[0]: each entry is a pointer into an
      array of children (the array and an index). *)
  Record iter : Type := mkIter { it_rem : list T; it_path : list (list (node T) * nat) }.

  (** [*path_[depth_]]. *)
  Definition deref_path (p : list (list (node T) * nat)) : res (node T) :=
    match p with
    | (cs, i) :: _ => rnth cs i
    | [] => UB
    end.

  (** champ_iterator.hpp:90-98 and 115-123: the new [cur_, end_) after moving to
      [child] at depth [depth]; unchanged (empty) when the node has no values. *)
  Definition enter (rem : list T) (depth : nat) (child : node T) : res (list T) :=
    if (depth <? max_depth)%nat then
      match child with
      | Inner _ dm vs _ => if dm =? 0 then Ok rem else rtake (popcount dm) vs
      | Coll _ => UB
      end
    else
      match child with
      | Coll vs => Ok vs
      | Inner _ _ _ _ => UB
      end.

  (** depth_ *)
  Definition it_depth (p : list (list (node T) * nat)) : nat := pred (length p).

  (** champ_iterator.hpp:80-103. *)
  Definition step_down (it : iter) : res (iter * bool) :=
    let depth := it_depth (it_path it) in
    if (depth <? max_depth)%nat then
      parent <- deref_path (it_path it) ;;
      match parent with
      | Inner nm _ _ cs =>
        if nm =? 0 then Ok (it, false)
        else
          child <- rnth cs 0 ;;
          rem <- enter (it_rem it) (S depth) child ;;
          Ok (mkIter rem ((cs, 0%nat) :: it_path it), true)
      | Coll _ => UB
      end
    else Ok (it, false).

  (** champ_iterator.hpp:105-129: recursion pops the path. *)
  Fixpoint step_right (rem : list T) (p : list (list (node T) * nat)) : res (iter * bool) :=
    match p with
    | [] => UB
    | (cs, i) :: q =>
      match q with
      | [] => Ok (mkIter rem p, false)
      | (cs', i') :: _ =>
        parent <- rnth cs' i' ;;
        match parent with
        | Inner nm _ _ _ =>
          if (S i <? popcount nm)%nat then
            child <- rnth cs (S i) ;;
            rem' <- enter rem (length q) child ;;
            Ok (mkIter rem' ((cs, S i) :: q), true)
          else step_right rem q
        | Coll _ => UB
        end
      end
    end.

  (** champ_iterator.hpp:131-144.  One unit of fuel per step_down/step_right. *)
  Fixpoint ensure_valid (fuel : nat) (it : iter) : res iter :=
    match it_rem it with
    | _ :: _ => Ok it
    | [] =>
      match fuel with
      | O => UB
      | S f =>
        '(it', moved) <- step_down it ;;
        if moved then ensure_valid f it'
        else
          '(it'', moved') <- step_right (it_rem it) (it_path it) ;;
          if moved' then ensure_valid f it''
          else Ok (mkIter [] (it_path it''))
      end
    end.

  (** champ_iterator.hpp:35-46. *)
  Definition it_begin (fuel : nat) (c : champ) : res iter :=
    match root c with
    | Inner _ dm vs _ =>
      rem <- (if dm =? 0 then Ok [] else rtake (popcount dm) vs) ;;
      ensure_valid fuel (mkIter rem [([root c], 0%nat)])
    | Coll _ => UB
    end.

  (** champ_iterator.hpp:74-78; incrementing the end iterator is undefined. *)
  Definition it_next (fuel : nat) (it : iter) : res iter :=
    match it_rem it with
    | _ :: l => ensure_valid fuel (mkIter l (it_path it))
    | [] => UB
    end.

  (** champ_iterator.hpp:148 dereference; 146 with end: cur_ == nullptr. *)
  Definition it_deref (it : iter) : res T :=
    match it_rem it with v :: _ => Ok v | [] => UB end.
  Definition it_is_end (it : iter) : bool :=
    match it_rem it with [] => true | _ => false end.

  (** A loop from begin to end that collects the dereferenced values. *)
  Fixpoint iterate (steps fuel : nat) (it : iter) : res (list T) :=
    if it_is_end it then Ok []
    else
      match steps with
      | O => UB
      | S s =>
        v <- it_deref it ;;
        it' <- it_next fuel it ;;
        l <- iterate s fuel it' ;;
        Ok (v :: l)
      end.
End Champ.

Arguments Added {T}. Arguments Removed {T}. Arguments Changed {T}.
