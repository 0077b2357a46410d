(** Programs over flex_vector and flex_vector_transient with a garbage collector: variables, their
    tokens, and the operations of GcVec and GcSlice.
    Source: /repo/immer/flex_vector_transient.hpp:48-245, flex_vector.hpp:242-245, 345-348, 371-374,
    503-504, transience/gc_transience_policy.hpp:51-110, detail/rbts/rrbtree.hpp:49-67, 101-150,
    574-701, 784-1340.

    Simplifications: tokens are numbers, given out in order; they are blocks of the same heap in the
    code, and no two of them are the same.  Of the operations of flex_vector that make a new value
    push_back, take and drop are here.  A right operand of a concatenation that is deeper or larger
    than what is supported (C29) is not concatenated, and nothing is dropped from such a vector: the
    program ends the statement with [ODeep].  Everything is done by one thread. *)
From Coq Require Import List NArith Arith Bool.
From Verif Require Import Common NList Rrb GcConcat GcVec GcSlice GcProgSpec.
Import ListNotations.
Local Open Scope N_scope.

Section GcProg.
  Variables B BL : N.
  Context {T : Type}.
  (** std::is_nothrow_move_constructible<T>, and what is left of an element by [x = std::move(x)]. *)
  Variable nm : bool.
  Variable selfmv : T -> T.

  (** flex_vector.hpp:616 and flex_vector_transient.hpp:245: a tree, and the token of the base
      class of the transient. *)
  Inductive gvar : Type := VNone | VVec (x : gtree) | VTra (x : gtree) (e : token).
  Record gstate : Type := mkS { gs_heap : gheap T; gs_next : token; gs_vars : list gvar }.
  Definition gv_at (s : gstate) (i : nat) : gvar := nth i (gs_vars s) VNone.

  (** empty_root, empty_tail: rrbtree.hpp:49-67; the token of noone: gc_transience_policy.hpp:104-110. *)
  Definition noone : token := 0%nat.
  Definition gempty : gtree := mkGT 0 0 0 1.
  Definition gstart : gstate := mkS [mkG None (GInner None []); mkG None (GLeaf [])] 1%nat [].

  Definition set_var (i : nat) (v : gvar) (s : gstate) : gstate := mkS (gs_heap s) (gs_next s) (update_at i v (gs_vars s)).
  Definition add_var (v : gvar) (s : gstate) : gstate := mkS (gs_heap s) (gs_next s) (gs_vars s ++ [v]).
  Definition set_heap (h : gheap T) (s : gstate) : gstate := mkS h (gs_next s) (gs_vars s).
  (** make_token_: gc_transience_policy.hpp:53-56. *)
  Definition new_token (s : gstate) : token * gstate := (gs_next s, mkS (gs_heap s) (S (gs_next s)) (gs_vars s)).
  (** owner_t::operator=(owner_t{}) (79-83) for variable [i]. *)
  Definition refresh (i : nat) (x : gtree) (s : gstate) : gstate :=
    let '(e, s) := new_token s in set_var i (VTra x e) s.
  (** An operation of GcVec. *)
  Definition gdo {A} (m : G T A) (s : gstate) : res (A * gstate) :=
    ' (a, h) <- m (gs_heap s) ;; Ok (a, set_heap h s).

  (** What is left in the tree that is moved to another: 1053-1329. *)
  Definition gleft (x y moved : gtree) : G T gtree :=
    if (gt_size x =? 0) || (gt_size y =? 0) then gret moved
    else roff <~ gtail_offset BL y ;; gret (if roff =? 0 then moved else gempty).
  Definition gsmall (y : gtree) : bool := (sh B BL (gt_lv y) <? 32) && (gt_size y <=? 2 ^ 32).

  Definition qstep (s : gstate) (o : qop T) : res (gstate * qobs) :=
    match o with
    (* flex_vector.hpp:97; rrbtree.hpp:101-108 *)
    | QNew => Ok (add_var (VVec gempty) s, ONone)
    (* flex_vector.hpp:503; flex_vector_transient.hpp:241-243, the token: gc_transience_policy.hpp:62-64 *)
    | QTransient i =>
        match gv_at s i with
        | VVec x => let '(e, s') := new_token s in Ok (add_var (VTra x e) s', ONone)
        | _ => Ok (add_var VNone s, ONone)
        end
    (* flex_vector_transient.hpp:231-235 *)
    | QPersistent i =>
        match gv_at s i with
        | VTra x _ => Ok (add_var (VVec x) (refresh i x s), ONone)
        | _ => Ok (add_var VNone s, ONone)
        end
    (* 236; rrbtree.hpp:126-130 *)
    | QFinish i =>
        match gv_at s i with
        | VTra x e => Ok (add_var (VVec x) (set_var i (VTra gempty e) s), ONone)
        | _ => Ok (add_var VNone s, ONone)
        end
    (* rrbtree.hpp:120-124; gc_transience_policy.hpp:65-69 *)
    | QCopy i =>
        match gv_at s i with
        | VVec x => Ok (add_var (VVec x) s, ONone)
        | VTra x _ => let '(e, s') := new_token s in Ok (add_var (VTra x e) (refresh i x s'), ONone)
        | VNone => Ok (add_var VNone s, ONone)
        end
    (* rrbtree.hpp:126-130; gc_transience_policy.hpp:70-72 *)
    | QMove i =>
        match gv_at s i with
        | VVec x => Ok (add_var (VVec x) (set_var i (VVec gempty) s), ONone)
        | VTra x e => Ok (add_var (VTra x e) (set_var i (VTra gempty e) s), ONone)
        | VNone => Ok (add_var VNone s, ONone)
        end
    (* rrbtree.hpp:132-137; gc_transience_policy.hpp:73-78 *)
    | QAssign i j =>
        match gv_at s i, gv_at s j with
        | VVec _, VVec y => Ok (set_var i (VVec y) s, ONone)
        | VTra _ _, VTra y _ => let s' := refresh j y s in Ok (refresh i y s', ONone)
        | _, _ => Ok (s, ONone)
        end
    (* rrbtree.hpp:139-143; gc_transience_policy.hpp:79-83 *)
    | QMoveAssign i j =>
        match gv_at s i, gv_at s j with
        | VVec x, VVec y => Ok (set_var i (VVec y) (set_var j (VVec x) s), ONone)
        | VTra x _, VTra y e => Ok (set_var i (VTra y e) (set_var j (VTra x e) s), ONone)
        | _, _ => Ok (s, ONone)
        end
    (* flex_vector.hpp:242-245 *)
    | QPushed i v =>
        match gv_at s i with
        | VVec x => ' (z, s') <- gdo (gpush_back B BL x v) s ;; Ok (add_var (VVec z) s', ONone)
        | _ => Ok (add_var VNone s, ONone)
        end
    (* flex_vector_transient.hpp:151-154 *)
    | QPush i v =>
        match gv_at s i with
        | VTra x e => ' (z, s') <- gdo (gpush_back_mut B BL e x v) s ;; Ok (set_var i (VTra z e) s', ONone)
        | _ => Ok (s, ONone)
        end
    (* 162-179 *)
    | QUpdate i k fn =>
        match gv_at s i with
        | VTra x e =>
            if k <? gt_size x then
              ' (z, s') <- gdo (gupdate_mut B BL e x k fn) s ;; Ok (set_var i (VTra z e) s', ONone)
            else Ok (s, ONone)
        | _ => Ok (s, ONone)
        end
    (* 202-210; the token of the argument that is an lvalue is replaced first *)
    | QAppend mv i j =>
        match gv_at s i, gv_at s j with
        | VTra x e, VTra y f =>
            if Nat.eqb i j then UB
            else if gsmall y then
              if mv then
                ' (y', s1) <- gdo (gleft x y y) s ;;
                ' (z, s2) <- gdo (gappend B BL noone e (Some f) x y) s1 ;;
                Ok (set_var j (VTra y' f) (set_var i (VTra z e) s2), ONone)
              else
                let s1 := refresh j y s in
                ' (z, s2) <- gdo (gappend B BL noone e None x y) s1 ;;
                Ok (set_var i (VTra z e) s2, ONone)
            else Ok (s, ODeep (gt_lv y))
        | _, _ => Ok (s, ONone)
        end
    (* 217-225 *)
    | QPrepend mv i j =>
        match gv_at s i, gv_at s j with
        | VTra x e, VTra y f =>
            if Nat.eqb i j then UB
            else if gsmall y then
              if mv then
                ' (x', s1) <- gdo (gleft x y x) s ;;
                ' (z, s2) <- gdo (gprepend B BL noone f (Some e) x y) s1 ;;
                Ok (set_var i (VTra x' e) (set_var j (VTra z f) s2), ONone)
              else
                let s1 := refresh i x s in
                ' (z, s2) <- gdo (gprepend B BL noone f None x y) s1 ;;
                Ok (set_var j (VTra z f) s2, ONone)
            else Ok (s, ODeep (gt_lv y))
        | _, _ => Ok (s, ONone)
        end
    (* 188 *)
    | QTake i n =>
        match gv_at s i with
        | VTra x e => ' (z, s') <- gdo (gtake_mut B BL gempty e x n) s ;; Ok (set_var i (VTra z e) s', ONone)
        | _ => Ok (s, ONone)
        end
    (* 195 *)
    | QDrop i n =>
        match gv_at s i with
        | VTra x e =>
            if gsmall x then
              ' (z, s') <- gdo (gdrop_mut B BL nm selfmv gempty e x n) s ;; Ok (set_var i (VTra z e) s', ONone)
            else Ok (s, ODeep (gt_lv x))
        | _ => Ok (s, ONone)
        end
    (* flex_vector.hpp:345-348 *)
    | QTaken i n =>
        match gv_at s i with
        | VVec x => ' (z, s') <- gdo (gtake B BL gempty x n) s ;; Ok (add_var (VVec z) s', ONone)
        | _ => Ok (add_var VNone s, ONone)
        end
    (* 371-374; a vector that is too deep is copied *)
    | QDropped i n =>
        match gv_at s i with
        | VVec x =>
            if gsmall x then
              ' (z, s') <- gdo (gdrop B BL nm selfmv gempty x n) s ;; Ok (add_var (VVec z) s', ONone)
            else Ok (add_var (VVec x) s, ODeep (gt_lv x))
        | _ => Ok (add_var VNone s, ONone)
        end
    end.
  Fixpoint qrun (s : gstate) (os : list (qop T)) : res (gstate * list qobs) :=
    match os with
    | [] => Ok (s, [])
    | o :: os => ' (s', x) <- qstep s o ;; ' (s'', xs) <- qrun s' os ;; Ok (s'', x :: xs)
    end.
End GcProg.
Arguments gstate : clear implicits.
