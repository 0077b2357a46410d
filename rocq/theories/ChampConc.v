(** The operations of immer/detail/hamts/champ.hpp as programs of threads: the functions of
    ChampHeap, one access to the memory per step.

    Simplifications: those of ChampHeap; nothing throws here.  A block is read in one step:
    the elements of a block that several threads can reach do not change.  Moving elements out
    of a values block is one write of what is left of them. *)
From Coq Require Import List NArith Arith Bool.
From Verif Require Import Common Bits Champ ChampSpec RcHeap Conc ChampHeap ChampProgSpec ChampProg.
Import ListNotations.
Local Open Scope N_scope.

Section ChampConc.
  Variable B : N.
  Context {T K V : Type}.
  Variable key : T -> K.
  Variable khash : K -> N.
  Variable keq : K -> K -> bool.
  Variable project : T -> V.
  Variable combine : K -> V -> T.
  (** What an element is after it was moved from. *)
  Variable gone : T -> T.
  (** The static empty node, champ.hpp:140-148. *)
  Variable e0 : nat.

  Notation PP := (prog (cbody T)).
  Notation teqk := (@teqk T K key keq).
  Notation thash := (@thash T K key khash).
  Notation max_shift := (max_shift B).
  Notation max_depth := (max_depth B).

  (** *** Access *)
  (** nodemap(), datamap(), values and children(), node.hpp:118-175. *)
  Definition c_load_inner (a : nat) : PP (N * N * option nat * list nat) :=
    c <-- ld a ;;
    match c_body c, c_kids c with
    | BInner nm dm true, va :: cs =>
        if (length cs =? popcount nm)%nat then Done (nm, dm, Some va, cs) else Fail
    | BInner nm dm false, cs =>
        if (length cs =? popcount nm)%nat then Done (nm, dm, None, cs) else Fail
    | _, _ => Fail
    end.
  (** values() with data_count() elements, node.hpp:118-128,153-157. *)
  Definition c_load_vals (dm : N) (vp : option nat) : PP (list T) :=
    match vp with
    | None => Fail
    | Some va =>
        c <-- ld va ;;
        match c_body c with
        | BVals vs => if (length vs =? popcount dm)%nat then Done vs else Fail
        | _ => Fail
        end
    end.
  (** The same for a node that may have no values: the copies of inner nodes guard on the number
      of values, node.hpp:684-985. *)
  Definition c_read_vals (dm : N) (vp : option nat) : PP (list T) :=
    if (popcount dm =? 0)%nat then Done [] else c_load_vals dm vp.
  (** collisions() and collision_count(), node.hpp:177-193. *)
  Definition c_load_coll (a : nat) : PP (list T) :=
    c <-- ld a ;; match c_body c with BColl vs => Done vs | _ => Fail end.

  (** *** Deletion *)
  (** node.hpp:1078-1083. *)
  Definition c_delete_values (n : nat) (va : nat) : PP unit :=
    c <-- ld va ;;
    match c_body c with
    | BVals vs => if (length vs =? n)%nat then fr va else Fail
    | _ => Fail
    end.
  (** node.hpp:1085-1093. *)
  Definition c_delete_inner (a : nat) : PP unit :=
    ' (nm, dm, vp, cs) <-- c_load_inner a ;;
    _ <-- match vp with
          | Some va =>
              last <-- dn va ;;
              if last : bool then c_delete_values (popcount dm) va else Done tt
          | None => Done tt
          end ;;
    fr a.
  (** node.hpp:1095-1102. *)
  Definition c_delete_collision (a : nat) : PP unit := _ <-- c_load_coll a ;; fr a.
  (** node.hpp:1104-1116; [d] is max_depth - s. *)
  Fixpoint c_delete_deep (d : nat) (a : nat) : PP unit :=
    match d with
    | O => c_delete_collision a
    | S d' =>
        ' (nm, dm, vp, cs) <-- c_load_inner a ;;
        _ <-- each (fun c => last <-- dn c ;;
                             if last : bool then c_delete_deep d' c else Done tt) cs ;;
        c_delete_inner a
    end.
  (** node.hpp:1118-1130; [f] bounds the depth. *)
  Fixpoint c_delete_deep_shift (f : nat) (a : nat) (s : N) : PP unit :=
    if s =? max_shift then c_delete_collision a
    else
      match f with
      | O => Fail
      | S f' =>
          ' (nm, dm, vp, cs) <-- c_load_inner a ;;
          _ <-- each (fun c => last <-- dn c ;;
                               if last : bool then c_delete_deep_shift f' c (s + B) else Done tt) cs ;;
          c_delete_inner a
      end.
  (** [if (node->dec()) delete_deep_shift(node, shift)]. *)
  Definition c_drop_shift (f : nat) (a : nat) (s : N) : PP unit :=
    last <-- dn a ;; if last : bool then c_delete_deep_shift f a s else Done tt.

  (** *** Allocation *)
  (** make_inner_n, node.hpp:255-328. *)
  Definition c_build_inner (nm dm : N) (vs : list T) (cs : list nat) : PP nat :=
    match vs with
    | [] => mk (BInner nm dm false) cs
    | _ :: _ => va <-- mk (BVals vs) [] ;; mk (BInner nm dm true) (va :: cs)
    end.
  (** The copies of inner nodes, node.hpp:522-929: increment the children that are shared. *)
  Definition c_copy_inner (nm dm : N) (vs : list T) (kept cs : list nat) : PP nat :=
    _ <-- each up kept ;; c_build_inner nm dm vs cs.
  (** The moves of inner nodes, node.hpp:632-985: the values are moved ([left] is what is left
      of them) if the source owns them alone and copied otherwise; then the source is deleted. *)
  Definition c_move_inner (a : nat) (vp : option nat) (k : nat) (left : list T) (nm dm : N)
                          (vs : list T) (cs : list nat) : PP nat :=
    _ <-- (if (0 <? k)%nat
           then match vp with
                | Some va => mine <-- uq va ;; if mine : bool then wr va (BVals left) [] else Done tt
                | None => Fail
                end
           else Done tt) ;;
    r <-- c_build_inner nm dm vs cs ;;
    _ <-- c_delete_inner a ;;
    Done r.

  (** node.hpp:390-412. *)
  Definition c_copy_collision_insert (a : nat) (v : T) : PP nat :=
    vs <-- c_load_coll a ;; mk (BColl (v :: vs)) [].
  (** node.hpp:414-437. *)
  Definition c_move_collision_insert (a : nat) (v : T) : PP nat :=
    vs <-- c_load_coll a ;;
    _ <-- wr a (BColl (map gone vs)) [] ;;
    r <-- mk (BColl (v :: vs)) [] ;;
    _ <-- c_delete_collision a ;; Done r.
  (** node.hpp:439-462. *)
  Definition c_copy_collision_remove (a : nat) (pos : nat) : PP nat :=
    vs <-- c_load_coll a ;; mk (BColl (firstn pos vs ++ skipn (S pos) vs)) [].
  (** node.hpp:464-488. *)
  Definition c_move_collision_remove (a : nat) (pos : nat) : PP nat :=
    vs <-- c_load_coll a ;;
    _ <-- wr a (BColl (map gone vs)) [] ;;
    r <-- mk (BColl (firstn pos vs ++ skipn (S pos) vs)) [] ;;
    _ <-- c_delete_collision a ;; Done r.
  (** node.hpp:490-520. *)
  Definition c_copy_collision_replace (a : nat) (pos : nat) (v : T) : PP nat :=
    vs <-- c_load_coll a ;; mk (BColl (v :: firstn pos vs ++ skipn (S pos) vs)) [].

  (** node.hpp:522-537: the values block is shared. *)
  Definition c_copy_inner_replace (a : nat) (offset : nat) (child : nat) : PP nat :=
    ' (nm, dm, vp, cs) <-- c_load_inner a ;;
    _ <-- each up (ptrs vp) ;;
    _ <-- each up (firstn offset cs ++ skipn (S offset) cs) ;;
    mk (BInner nm dm (is_some vp)) (ptrs vp ++ update_at offset child cs).
  (** node.hpp:560-587. *)
  Definition c_copy_inner_replace_value (a : nat) (offset : nat) (v : T) : PP nat :=
    ' (nm, dm, vp, cs) <-- c_load_inner a ;;
    vs <-- c_load_vals dm vp ;;
    c_copy_inner nm dm (update_at offset v vs) cs cs.
  (** node.hpp:589-630. *)
  Definition c_copy_inner_replace_merged (a : nat) (bit : N) (voffset : nat) (child : nat) : PP nat :=
    ' (nm, dm, vp, cs) <-- c_load_inner a ;;
    vs <-- c_load_vals dm vp ;;
    let noffset := count_below nm bit in
    c_copy_inner (N.lor nm bit) (clear dm bit)
      (firstn voffset vs ++ skipn (S voffset) vs) cs
      (firstn noffset cs ++ child :: skipn noffset cs).
  (** node.hpp:632-682. *)
  Definition c_move_inner_replace_merged (a : nat) (bit : N) (voffset : nat) (child : nat) : PP nat :=
    ' (nm, dm, vp, cs) <-- c_load_inner a ;;
    vs <-- c_load_vals dm vp ;;
    let noffset := count_below nm bit in
    c_move_inner a vp (length vs - 1) (map gone vs) (N.lor nm bit) (clear dm bit)
      (firstn voffset vs ++ skipn (S voffset) vs)
      (firstn noffset cs ++ child :: skipn noffset cs).
  (** node.hpp:684-732. *)
  Definition c_copy_inner_replace_inline (a : nat) (bit : N) (noffset : nat) (v : T) : PP nat :=
    ' (nm, dm, vp, cs) <-- c_load_inner a ;;
    vs <-- c_read_vals dm vp ;;
    let voffset := count_below dm bit in
    let cs' := firstn noffset cs ++ skipn (S noffset) cs in
    c_copy_inner (clear nm bit) (N.lor dm bit)
      (firstn voffset vs ++ v :: skipn voffset vs) cs' cs'.
  (** node.hpp:734-794. *)
  Definition c_move_inner_replace_inline (a : nat) (bit : N) (noffset : nat) (v : T) : PP nat :=
    ' (nm, dm, vp, cs) <-- c_load_inner a ;;
    vs <-- c_read_vals dm vp ;;
    let voffset := count_below dm bit in
    c_move_inner a vp (length vs) (map gone vs) (clear nm bit) (N.lor dm bit)
      (firstn voffset vs ++ v :: skipn voffset vs)
      (firstn noffset cs ++ skipn (S noffset) cs).
  (** node.hpp:796-830. *)
  Definition c_copy_inner_remove_value (a : nat) (bit : N) (voffset : nat) : PP nat :=
    ' (nm, dm, vp, cs) <-- c_load_inner a ;;
    vs <-- c_load_vals dm vp ;;
    c_copy_inner nm (clear dm bit)
      (firstn voffset vs ++ skipn (S voffset) vs) cs cs.
  (** node.hpp:832-889. *)
  Definition c_move_inner_remove_value (a : nat) (bit : N) (voffset : nat) : PP nat :=
    ' (nm, dm, vp, cs) <-- c_load_inner a ;;
    vs <-- c_load_vals dm vp ;;
    c_move_inner a vp (length vs - 1) (map gone vs) nm (clear dm bit)
      (firstn voffset vs ++ skipn (S voffset) vs) cs.
  (** node.hpp:891-929. *)
  Definition c_copy_inner_insert_value (a : nat) (bit : N) (v : T) : PP nat :=
    ' (nm, dm, vp, cs) <-- c_load_inner a ;;
    vs <-- c_read_vals dm vp ;;
    let offset := count_below dm bit in
    c_copy_inner nm (N.lor dm bit)
      (firstn offset vs ++ v :: skipn offset vs) cs cs.
  (** node.hpp:931-985. *)
  Definition c_move_inner_insert_value (a : nat) (bit : N) (v : T) : PP nat :=
    ' (nm, dm, vp, cs) <-- c_load_inner a ;;
    vs <-- c_read_vals dm vp ;;
    let offset := count_below dm bit in
    c_move_inner a vp (length vs) (map gone vs) nm (N.lor dm bit)
      (firstn offset vs ++ v :: skipn offset vs) cs.

  (** node.hpp:987-1014 and 1016-1046. *)
  Fixpoint c_make_merged (f : nat) (shift : N) (v1 : T) (h1 : N) (v2 : T) (h2 : N) : PP nat :=
    if shift <? max_shift then
      match f with
      | O => Fail
      | S f' =>
        let i1 := hash_part B h1 shift in
        let i2 := hash_part B h2 shift in
        if i1 =? i2 then
          merged <-- c_make_merged f' (shift + B) v1 h1 v2 h2 ;;
          mk (BInner (N.shiftl 1 (N.shiftr i1 shift)) 0 false) [merged]
        else
          let j1 := N.shiftr i1 shift in
          let j2 := N.shiftr i2 shift in
          c_build_inner 0 (N.lor (N.shiftl 1 j1) (N.shiftl 1 j2))
            (if j1 <? j2 then [v1; v2] else [v2; v1]) []
      end
    else mk (BColl [v1; v2]) [].

  (** node.hpp:364-388; the result is the values block, which [a] now owns alone. *)
  Definition c_ensure_mutable_values (a : nat) : PP nat :=
    ' (nm, dm, vp, cs) <-- c_load_inner a ;;
    match vp with
    | None => Fail
    | Some va =>
        mine <-- uq va ;;
        if mine : bool then Done va
        else
          vs <-- c_load_vals dm vp ;;
          nxt <-- mk (BVals vs) [] ;;
          _ <-- wr a (BInner nm dm true) (nxt :: cs) ;;
          last <-- dn va ;;
          _ <-- (if last : bool then c_delete_values (popcount dm) va else Done tt) ;;
          Done nxt
    end.
  (** [children()[offset] = child]. *)
  Definition c_store_child (a : nat) (offset : nat) (child : nat) : PP unit :=
    ' (nm, dm, vp, cs) <-- c_load_inner a ;;
    wr a (BInner nm dm (is_some vp)) (ptrs vp ++ update_at offset child cs).

  (** *** add, update and update_if_exists: champ.hpp:569-624, 749-846, 848-901. *)
  Section Upd.
  Variable k : K.
  Variable found : T -> T.
  Variable absent : option T.

  Fixpoint c_do_upd (f : nat) (a : nat) (h shift : N) : PP (option (nat * bool)) :=
    if shift =? max_shift then
      vs <-- c_load_coll a ;;
      match find_index (fun w => teqk w k) vs with
      | Some pos =>
          w <-- plift (rnth vs pos) ;;
          r <-- c_copy_collision_replace a pos (found w) ;; Done (Some (r, false))
      | None =>
          match absent with
          | Some v => r <-- c_copy_collision_insert a v ;; Done (Some (r, true))
          | None => Done None
          end
      end
    else
      match f with
      | O => Fail
      | S f' =>
        ' (nm, dm, vp, cs) <-- c_load_inner a ;;
        let bit := N.shiftl 1 (hash_idx B h shift) in
        if has nm bit then
          let offset := count_below nm bit in
          c <-- plift (rnth cs offset) ;;
          res <-- c_do_upd f' c h (shift + B) ;;
          match res with
          | Some (c', added) =>
              r <-- c_copy_inner_replace a offset c' ;; Done (Some (r, added))
          | None => Done None
          end
        else if has dm bit then
          let offset := count_below dm bit in
          vs <-- c_load_vals dm vp ;;
          w <-- plift (rnth vs offset) ;;
          if teqk w k then
            r <-- c_copy_inner_replace_value a offset (found w) ;; Done (Some (r, false))
          else
            match absent with
            | Some v =>
                child <-- c_make_merged f' (shift + B) v h w (thash w) ;;
                r <-- c_copy_inner_replace_merged a bit offset child ;;
                Done (Some (r, true))
            | None => Done None
            end
        else
          match absent with
          | Some v => r <-- c_copy_inner_insert_value a bit v ;; Done (Some (r, true))
          | None => Done None
          end
      end.

  (** In place: champ.hpp:641-735, 918-1022, 1047-1142. *)
  Fixpoint c_do_upd_mut (f : nat) (a : nat) (h shift : N) : PP (option (nat * bool * bool)) :=
    if shift =? max_shift then
      vs <-- c_load_coll a ;;
      match find_index (fun w => teqk w k) vs with
      | Some pos =>
          w <-- plift (rnth vs pos) ;;
          mutate <-- uq a ;;
          if mutate : bool then
            _ <-- wr a (BColl (update_at pos (gone w) vs)) [] ;;
            _ <-- wr a (BColl (update_at pos (found w) vs)) [] ;;
            Done (Some (a, false, true))
          else
            r <-- c_copy_collision_replace a pos (found w) ;; Done (Some (r, false, false))
      | None =>
          match absent with
          | Some v =>
              mutate <-- uq a ;;
              r <-- (if mutate : bool then c_move_collision_insert a v
                     else c_copy_collision_insert a v) ;;
              Done (Some (r, true, mutate))
          | None => Done None
          end
      end
    else
      match f with
      | O => Fail
      | S f' =>
        ' (nm, dm, vp, cs) <-- c_load_inner a ;;
        let bit := N.shiftl 1 (hash_idx B h shift) in
        if has nm bit then
          let offset := count_below nm bit in
          child <-- plift (rnth cs offset) ;;
          mutate <-- uq a ;;
          if mutate : bool then
            res <-- c_do_upd_mut f' child h (shift + B) ;;
            match res with
            | Some (c', added, mutated) =>
                _ <-- c_store_child a offset c' ;;
                _ <-- (if mutated : bool then Done tt else c_drop_shift f' child (shift + B)) ;;
                Done (Some (a, added, true))
            | None => Done None
            end
          else
            res <-- c_do_upd f' child h (shift + B) ;;
            match res with
            | Some (c', added) =>
                r <-- c_copy_inner_replace a offset c' ;;
                Done (Some (r, added, false))
            | None => Done None
            end
        else if has dm bit then
          let offset := count_below dm bit in
          vs <-- c_load_vals dm vp ;;
          w <-- plift (rnth vs offset) ;;
          if teqk w k then
            mutate <-- uq a ;;
            if mutate : bool then
              va <-- c_ensure_mutable_values a ;;
              _ <-- wr va (BVals (update_at offset (gone w) vs)) [] ;;
              _ <-- wr va (BVals (update_at offset (found w) vs)) [] ;;
              Done (Some (a, false, true))
            else
              r <-- c_copy_inner_replace_value a offset (found w) ;; Done (Some (r, false, false))
          else
            match absent with
            | Some v =>
                mutate <-- uq a ;;
                if mutate : bool then
                  match vp with
                  | None => Fail
                  | Some va =>
                      mine <-- uq va ;;
                      (* the arguments of make_merged_e: the element is moved or copied *)
                      _ <-- (if mine : bool then wr va (BVals (update_at offset (gone w) vs)) []
                             else Done tt) ;;
                      child <-- c_make_merged f' (shift + B) v h w (thash w) ;;
                      r <-- c_move_inner_replace_merged a bit offset child ;;
                      Done (Some (r, true, true))
                  end
                else
                  child <-- c_make_merged f' (shift + B) v h w (thash w) ;;
                  r <-- c_copy_inner_replace_merged a bit offset child ;;
                  Done (Some (r, true, false))
            | None => Done None
            end
        else
          match absent with
          | Some v =>
              mutate <-- uq a ;;
              r <-- (if mutate : bool then c_move_inner_insert_value a bit v
                     else c_copy_inner_insert_value a bit v) ;;
              Done (Some (r, true, mutate))
          | None => Done None
          end
      end.
  End Upd.

  (** *** Erasure *)
  Definition c_deref (p i : nat) : PP T :=
    c <-- ld p ;;
    match c_body c with
    | BVals vs | BColl vs => plift (rnth vs i)
    | BInner _ _ _ => Fail
    end.

  (** champ.hpp:1200-1275. *)
  Fixpoint c_do_sub (f : nat) (a : nat) (k : K) (h shift : N) : PP sub_res :=
    if shift =? max_shift then
      vs <-- c_load_coll a ;;
      match find_index (fun w => teqk w k) vs with
      | Some pos =>
          if (2 <? length vs)%nat then r <-- c_copy_collision_remove a pos ;; Done (RTree r)
          else Done (RSing a (other pos))
      | None => Done RNothing
      end
    else
      match f with
      | O => Fail
      | S f' =>
        ' (nm, dm, vp, cs) <-- c_load_inner a ;;
        let bit := N.shiftl 1 (hash_idx B h shift) in
        if has nm bit then
          let offset := count_below nm bit in
          c <-- plift (rnth cs offset) ;;
          res <-- c_do_sub f' c k h (shift + B) ;;
          match res with
          | RNothing => Done RNothing
          | RSing p i =>
              if (dm =? 0) && (popcount nm =? 1)%nat && (0 <? shift) then Done (RSing p i)
              else
                v <-- c_deref p i ;;
                r <-- c_copy_inner_replace_inline a bit offset v ;; Done (RTree r)
          | RTree c' => r <-- c_copy_inner_replace a offset c' ;; Done (RTree r)
          end
        else if has dm bit then
          let offset := count_below dm bit in
          vs <-- c_load_vals dm vp ;;
          w <-- plift (rnth vs offset) ;;
          if teqk w k then
            let nv := popcount dm in
            if negb (nm =? 0) || (2 <? nv)%nat then
              r <-- c_copy_inner_remove_value a bit offset ;; Done (RTree r)
            else if (nv =? 2)%nat then
              if 0 <? shift then
                match vp with Some va => Done (RSing va (other offset)) | None => Fail end
              else
                x <-- plift (rnth vs (other offset)) ;;
                r <-- c_build_inner 0 (clear dm bit) [x] [] ;; Done (RTree r)
            else if shift =? 0 then _ <-- up e0 ;; Done (RTree e0)
            else Fail
          else Done RNothing
        else Done RNothing
      end.

  (** champ.hpp:1340-1475. *)
  Fixpoint c_do_sub_mut (f : nat) (a : nat) (k : K) (h shift : N) : PP (@sub_mut_res T) :=
    mutate <-- uq a ;;
    if shift =? max_shift then
      vs <-- c_load_coll a ;;
      match find_index (fun w => teqk w k) vs with
      | Some pos =>
          if (length vs <=? 2)%nat then
            if mutate : bool then
              w <-- plift (rnth vs (other pos)) ;;
              _ <-- wr a (BColl (update_at (other pos) (gone w) vs)) [] ;;
              _ <-- c_delete_collision a ;;
              Done (MSing (Own w) true)
            else Done (MSing (At a (other pos)) false)
          else
            r <-- (if mutate : bool then c_move_collision_remove a pos
                   else c_copy_collision_remove a pos) ;;
            Done (MTree r mutate)
      | None => Done MNothing
      end
    else
      match f with
      | O => Fail
      | S f' =>
        ' (nm, dm, vp, cs) <-- c_load_inner a ;;
        let bit := N.shiftl 1 (hash_idx B h shift) in
        if has nm bit then
          let offset := count_below nm bit in
          child <-- plift (rnth cs offset) ;;
          res <-- (if mutate : bool then c_do_sub_mut f' child k h (shift + B)
                   else r <-- c_do_sub f' child k h (shift + B) ;; Done (of_sub r)) ;;
          match res with
          | MNothing => Done MNothing
          | MSing s mutated =>
              if (dm =? 0) && (popcount nm =? 1)%nat && (0 <? shift) then
                _ <-- (if mutate : bool then
                         _ <-- c_delete_inner a ;;
                         (if mutated : bool then Done tt else c_drop_shift f' child (shift + B))
                       else Done tt) ;;
                Done (MSing s mutate)
              else
                v <-- match s with Own v => Done v | At p i => c_deref p i end ;;
                r <-- (if mutate : bool then c_move_inner_replace_inline a bit offset v
                       else c_copy_inner_replace_inline a bit offset v) ;;
                _ <-- (if negb mutated && mutate then c_drop_shift f' child (shift + B)
                       else Done tt) ;;
                Done (MTree r mutate)
          | MTree c' mutated =>
              if mutate : bool then
                _ <-- c_store_child a offset c' ;;
                _ <-- (if mutated : bool then Done tt else c_drop_shift f' child (shift + B)) ;;
                Done (MTree a true)
              else
                r <-- c_copy_inner_replace a offset c' ;;
                Done (MTree r false)
          end
        else if has dm bit then
          let offset := count_below dm bit in
          vs <-- c_load_vals dm vp ;;
          w <-- plift (rnth vs offset) ;;
          mutate_values <-- (if mutate : bool
                             then match vp with Some va => uq va | None => Fail end
                             else Done false) ;;
          if teqk w k then
            let nv := popcount dm in
            if negb (nm =? 0) || (2 <? nv)%nat then
              r <-- (if mutate : bool then c_move_inner_remove_value a bit offset
                     else c_copy_inner_remove_value a bit offset) ;;
              Done (MTree r mutate)
            else if (nv =? 2)%nat then
              x <-- plift (rnth vs (other offset)) ;;
              match vp with
              | None => Fail
              | Some va =>
                if 0 <? shift then
                  if mutate_values : bool then
                    _ <-- wr va (BVals (update_at (other offset) (gone x) vs)) [] ;;
                    _ <-- c_delete_inner a ;; Done (MSing (Own x) true)
                  else Done (MSing (At va (other offset)) false)
                else
                  _ <-- (if mutate_values : bool
                         then wr va (BVals (update_at (other offset) (gone x) vs)) []
                         else Done tt) ;;
                  r <-- c_build_inner 0 (clear dm bit) [x] [] ;;
                  _ <-- (if mutate : bool then c_delete_inner a else Done tt) ;;
                  Done (MTree r mutate)
              end
            else if shift =? 0 then
              _ <-- (if mutate : bool then c_delete_inner a else Done tt) ;;
              _ <-- up e0 ;; Done (MTree e0 mutate)
            else Fail
          else Done MNothing
        else Done MNothing
      end.

  (** *** The container *)
  (** champ.hpp:533-561. *)
  Fixpoint c_get_loop (f : nat) (a : nat) (h : N) (k : K) : PP (option T) :=
    match f with
    | O => vs <-- c_load_coll a ;; Done (find (fun v => teqk v k) vs)
    | S f' =>
        ' (nm, dm, vp, cs) <-- c_load_inner a ;;
        let bit := N.shiftl 1 (N.land h (mask B)) in
        if has nm bit then
          c <-- plift (rnth cs (count_below nm bit)) ;;
          c_get_loop f' c (N.shiftr h B) k
        else if has dm bit then
          vs <-- c_load_vals dm vp ;;
          v <-- plift (rnth vs (count_below dm bit)) ;;
          Done (if teqk v k then Some v else None)
        else Done None
    end.
  (** get, champ.hpp:533-561. *)
  Definition c_get (c : hchamp) (k : K) : PP (option T) :=
    c_get_loop max_depth (h_root c) (khash k) k.

  (** champ.hpp:140-154. *)
  Definition c_empty : PP hchamp := _ <-- up e0 ;; Done (mkH e0 0).
  (** champ.hpp:155-159. *)
  Definition c_copy (c : hchamp) : PP hchamp := _ <-- up (h_root c) ;; Done c.
  (** champ.hpp:185-193. *)
  Definition c_destroy (c : hchamp) : PP unit :=
    last <-- dn (h_root c) ;;
    if last : bool then c_delete_deep max_depth (h_root c) else Done tt.

  (** champ.hpp:626-632, 834-846, 903-914. *)
  Definition c_upd (k : K) (found : T -> T) (absent : option T) (c : hchamp) : PP hchamp :=
    res <-- c_do_upd k found absent max_depth (h_root c) (khash k) 0 ;;
    match res with
    | Some (r, added) => Done (mkH r (h_size c + (if added : bool then 1 else 0)))
    | None => c_copy c
    end.
  (** champ.hpp:737-745, 1024-1038, 1144-1157. *)
  Definition c_upd_mut (k : K) (found : T -> T) (absent : option T) (c : hchamp) : PP hchamp :=
    res <-- c_do_upd_mut k found absent max_depth (h_root c) (khash k) 0 ;;
    match res with
    | Some (r, added, mutated) =>
        _ <-- (if mutated : bool then Done tt else c_destroy c) ;;
        Done (mkH r (h_size c + (if added : bool then 1 else 0)))
    | None => Done c
    end.
  (** champ.hpp:1277-1290. *)
  Definition c_sub (k : K) (c : hchamp) : PP hchamp :=
    res <-- c_do_sub max_depth (h_root c) k (khash k) 0 ;;
    match res with
    | RNothing => c_copy c
    | RTree r => Done (mkH r (h_size c - 1))
    | RSing _ _ => Fail
    end.
  (** champ.hpp:1479-1497. *)
  Definition c_sub_mut (k : K) (c : hchamp) : PP hchamp :=
    res <-- c_do_sub_mut max_depth (h_root c) k (khash k) 0 ;;
    match res with
    | MNothing => Done c
    | MTree r mutated =>
        _ <-- (if mutated : bool then Done tt else c_destroy c) ;;
        Done (mkH r (h_size c - 1))
    | MSing _ _ => Fail
    end.

  (** *** Programs: ChampProg *)
  Notation op := (@op T K V).
  (** insert, set: add; update, update_if_exists, erase (map.hpp:270-430, set.hpp:160-220,
      table.hpp:250-420). *)
  Definition c_apply (o : op) (c : hchamp) : PP hchamp :=
    match o with
    | OpInsert v => c_upd (key v) (fun _ => v) (Some v) c
    | OpUpdate k fn d => c_upd k (fun w => combine k (fn (project w))) (Some (combine k (fn d))) c
    | OpUpdateIfExists k fn => c_upd k (fun w => combine k (fn (project w))) None c
    | OpErase k => c_sub k c
    end.
  (** The same on a transient (map_transient.hpp:241-303) or on an rvalue (map.hpp:432-520). *)
  Definition c_mutate (o : op) (c : hchamp) : PP hchamp :=
    match o with
    | OpInsert v => c_upd_mut (key v) (fun _ => v) (Some v) c
    | OpUpdate k fn d => c_upd_mut k (fun w => combine k (fn (project w))) (Some (combine k (fn d))) c
    | OpUpdateIfExists k fn => c_upd_mut k (fun w => combine k (fn (project w))) None c
    | OpErase k => c_sub_mut k c
    end.

  (** A statement of a thread that uses its own variables [l], as in ChampProg. *)
  Definition c_step (l : list mvar) (o : mop T K V) : PP (list mvar * mobs T) :=
    match o with
    | MNew => c <-- c_empty ;; Done (l ++ [VHas c], ONone)
    | MCopy i =>
        match champ_of (mvar_at l i) with
        | Some c => c' <-- c_copy c ;; Done (l ++ [with_champ (mvar_at l i) c'], ONone)
        | None => Done (l ++ [VGone], ONone)
        end
    | MMove i =>
        match champ_of (mvar_at l i) with
        | Some c => c' <-- c_empty ;; Done (update_at i (VHas c') l ++ [mvar_at l i], ONone)
        | None => Done (l ++ [VGone], ONone)
        end
    | MAssign i j =>
        match champ_of (mvar_at l i), champ_of (mvar_at l j) with
        | Some c, Some d =>
            next <-- c_copy d ;; _ <-- c_destroy c ;;
            Done (update_at i (with_champ (mvar_at l j) next) l, ONone)
        | _, _ => Done (l, ONone)
        end
    | MMoveAssign i j =>
        match champ_of (mvar_at l i), champ_of (mvar_at l j) with
        | Some _, Some _ =>
            Done (update_at i (mvar_at l j) (update_at j (mvar_at l i) l), ONone)
        | _, _ => Done (l, ONone)
        end
    | MDestroy i =>
        match champ_of (mvar_at l i) with
        | Some c => _ <-- c_destroy c ;; Done (update_at i VGone l, ONone)
        | None => Done (l, ONone)
        end
    | MApply i o _ =>
        match mvar_at l i with
        | VHas c => c' <-- c_apply o c ;; Done (l ++ [VHas c'], ONone)
        | _ => Done (l ++ [VGone], ONone)
        end
    | MMutate i o _ =>
        match mvar_at l i with
        | VHas c => c' <-- c_mutate o c ;; Done (update_at i (VHas c') l, ONone)
        | _ => Done (l, ONone)
        end
    | MGet i k _ =>
        match mvar_at l i with
        | VHas c => v <-- c_get c k ;; Done (l, OFound v)
        | _ => Done (l, ONone)
        end
    | MSize i =>
        match mvar_at l i with
        | VHas c => Done (l, OSize (h_size c))
        | _ => Done (l, ONone)
        end
    end.
  (** A thread. *)
  Fixpoint c_thread (l : list mvar) (os : list (mop T K V)) : PP (list mvar * list (mobs T)) :=
    match os with
    | [] => Done (l, [])
    | o :: os' =>
        ' (l', x) <-- c_step l o ;;
        ' (l'', xs) <-- c_thread l' os' ;;
        Done (l'', x :: xs)
    end.
End ChampConc.
