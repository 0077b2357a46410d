(** Programs over vector variables on counted memory: what vector.hpp, flex_vector.hpp and their
    transients make of rbtree.hpp and rrbtree.hpp. *)
From Coq Require Import List NArith Arith Bool.
From Verif Require Import Common NList Rrb RcHeap RcExn VecHeap VecTree VecConcat VecConcatTree VecProgSpec.
Import ListNotations.
Local Open Scope N_scope.

Section Prog.
  Variables B BL : N.
  Context {T : Type}.
  Variable gone : T -> T.
  Variable nm : bool.
  (** The static empty nodes of each class. *)
  Variables er et : bool -> nat.

  Notation body := (vbody T).
  Notation MM := (M body).
  Notation XX := (X body).

  (** A variable: without a container, or with one and the class of its tree (rrbtree or not).
      A transient holds a tree as a container does (vector.hpp:340-341,
      vector_transient.hpp:182-187, flex_vector.hpp:503-504, flex_vector_transient.hpp:231-236). *)
  Inductive vvar : Type := HGone | HHas (rx : bool) (x : htree).
  Definition vvar_at (l : list vvar) (i : nat) : vvar := nth i l HGone.

  (** What the operation is refused for: a drop where the arithmetic on sizes leaves 32 bits
      (see [slice_left] in Rrb). *)
  Definition too_deep (x : htree) (o : vop T) : bool :=
    match o with
    | VDrop _ => (32 <=? sh B BL (ht_lv x)) || (2 ^ 32 <? ht_size x)
    | _ => false
    end.
  (** The same for the right operand of a concatenation. *)
  Definition too_big (y : htree) : bool := (32 <=? sh B BL (ht_lv y)) || (2 ^ 32 <? ht_size y).
  (** push_back, update, set, take, drop: vector.hpp:243-329, flex_vector.hpp:241-374. *)
  Definition apply_v (rx : bool) (o : vop T) (x : htree) : XX htree :=
    match o with
    | VPush v => hpush_back B BL rx x v
    | VUpdate i fn => if i <? ht_size x then hupdate_tree B BL rx x i fn else xm (hcopy x)
    | VTake n => htake B BL rx (er rx) (et rx) x n
    | VDrop n => hdrop B BL nm rx (er rx) (et rx) x n
    end.
  (** The same on a transient (vector_transient.hpp:142-176, flex_vector_transient.hpp:154-195)
      or on an rvalue ( *_move: vector.hpp:378-413, flex_vector.hpp:540-585).  The boolean says
      whether the function of an update threw. *)
  Definition mutate_v (rx : bool) (o : vop T) (x : htree) : XX (htree * bool) :=
    match o with
    | VPush v => y <- hpush_back_mut B BL rx x v ;;; xret (y, false)
    | VUpdate i fn => if i <? ht_size x then hupdate_mut B BL gone rx x i fn else xret (x, false)
    | VTake n => y <- htake_mut B BL rx (er rx) (et rx) x n ;;; xret (y, false)
    | VDrop n => y <- hdrop_mut B BL nm rx (er rx) (et rx) x n ;;; xret (y, false)
    end.
  (** An operation with its own points where it throws, whose exception the program catches. *)
  Definition vcatch {A} (f : list bool) (m : XX A) : MM (option A) :=
    fun h => match m f h with
             | Ok (Ret a, _, h') => Ok (Some a, h')
             | Ok (Exn, _, h') => Ok (None, h')
             | UB => UB
             end.

  Definition pstep (l : list vvar) (o : pop T) : MM (list vvar * pobs T) :=
    match o with
    | PNew rx => x <~ hempty (er rx) (et rx) ;; mret (l ++ [HHas rx x], SNone)
    (* copy constructor, rrbtree.hpp:119-123, rbtree.hpp:105-109 *)
    | PCopy i =>
        match vvar_at l i with
        | HHas rx x => y <~ hcopy x ;; mret (l ++ [HHas rx y], SNone)
        | HGone => mret (l ++ [HGone], SNone)
        end
    (* move constructor, rrbtree.hpp:125-129, rbtree.hpp:111-115: swapped with a new empty one *)
    | PMove i =>
        match vvar_at l i with
        | HHas rx x => y <~ hempty (er rx) (et rx) ;; mret (update_at i (HHas rx y) l ++ [HHas rx x], SNone)
        | HGone => mret (l ++ [HGone], SNone)
        end
    (* flex_vector.hpp:130-136, flex_vector_transient.hpp:77-85 *)
    | PFlex i =>
        match vvar_at l i with
        | HHas false x => y <~ hcopy x ;; mret (l ++ [HHas true y], SNone)
        | _ => mret (l ++ [HGone], SNone)
        end
    (* copy assignment, rrbtree.hpp:131-136, rbtree.hpp:117-122 *)
    | PAssign i j =>
        match vvar_at l i, vvar_at l j with
        | HHas rx x, HHas ry y =>
            if same rx ry then
              next <~ hcopy y ;; _ <~ hdestroy B BL rx x ;; mret (update_at i (HHas rx next) l, SNone)
            else mret (l, SNone)
        | _, _ => mret (l, SNone)
        end
    (* move assignment, rrbtree.hpp:138-142, rbtree.hpp:124-128: a swap *)
    | PMoveAssign i j =>
        match vvar_at l i, vvar_at l j with
        | HHas rx x, HHas ry y =>
            if same rx ry then mret (update_at i (HHas ry y) (update_at j (HHas rx x) l), SNone)
            else mret (l, SNone)
        | _, _ => mret (l, SNone)
        end
    (* destructor, rrbtree.hpp:153, rbtree.hpp:139 *)
    | PDestroy i =>
        match vvar_at l i with
        | HHas rx x => _ <~ hdestroy B BL rx x ;; mret (update_at i HGone l, SNone)
        | HGone => mret (l, SNone)
        end
    | PApply i o f =>
        match vvar_at l i with
        | HHas rx x =>
            if offers rx o then
              if too_deep x o then mret (l ++ [HGone], SDeep (ht_lv x))
              else
                r <~ vcatch f (apply_v rx o x) ;;
                match r with
                | Some y => mret (l ++ [HHas rx y], SNone)
                | None => mret (l ++ [HGone], SThrew)
                end
            else mret (l ++ [HGone], SNone)
        | HGone => mret (l ++ [HGone], SNone)
        end
    | PMutate fx i o f =>
        match vvar_at l i with
        | HHas rx x =>
            if same fx rx && offers fx o then
              if too_deep x o then mret (l, SDeep (ht_lv x))
              else
                r <~ vcatch f (mutate_v rx o x) ;;
                match r with
                | Some (y, threw) => mret (update_at i (HHas rx y) l, if threw : bool then SBroke else SNone)
                | None => mret (l, SThrew)
                end
            else mret (l, SNone)
        | HGone => mret (l, SNone)
        end
    (* operator+ flex_vector.hpp:398-418 over concat_move 591-612; append and prepend,
       flex_vector_transient.hpp:202-225 *)
    | PConcat m i j f =>
        match vvar_at l i, vvar_at l j with
        | HHas true x, HHas true y =>
            if too_big y then mret (match m with CNew => l ++ [HGone] | _ => l end, SDeep (ht_lv y))
            else
              match m with
              | CNew =>
                  r <~ vcatch f (hconcat B BL x y) ;;
                  match r with
                  | Some z => mret (l ++ [HHas true z], SNone)
                  | None => mret (l ++ [HGone], SThrew)
                  end
              | CAppend | CAppendMove =>
                  if Nat.eqb i j then mub
                  else
                    r <~ vcatch f (hconcat_mut_l B BL gone (match m with CAppendMove => true | _ => false end) x y) ;;
                    match r with
                    | Some (z, k, threw) =>
                        mret (update_at i (HHas true z) l,
                              if threw : bool then SThrew else if k =? 0 then SNone else SMoved k)
                    | None => mret (l, SThrew)
                    end
              | CPrepend | CPrependMove =>
                  if Nat.eqb i j then mub
                  else
                    r <~ vcatch f (match m with CPrepend => hconcat_mut_r B BL x y | _ => hconcat_mut_lr_r B BL x y end) ;;
                    match r with
                    | Some z => mret (update_at j (HHas true z) l, SNone)
                    | None => mret (l, SThrew)
                    end
              end
        | _, _ => mret (match m with CNew => l ++ [HGone] | _ => l end, SNone)
        end
    (* at: get_check, rrbtree.hpp:532-537, rbtree.hpp:383-388, over descend, which is
       instantiated for six levels *)
    | PGet i k =>
        match vvar_at l i with
        | HHas rx x =>
            if ht_size x <=? k then mret (l, SThrew)
            else if Nat.leb 6 (ht_lv x) then mret (l, SDeep (ht_lv x))
            else v <~ hget B BL rx x k ;; mret (l, SElem v)
        | HGone => mret (l, SNone)
        end
    | PSize i =>
        match vvar_at l i with
        | HHas _ x => mret (l, SSize (ht_size x))
        | HGone => mret (l, SNone)
        end
    end.
  Fixpoint prun (l : list vvar) (os : list (pop T)) : MM (list vvar * list (pobs T)) :=
    match os with
    | [] => mret (l, [])
    | o :: os' =>
        ' (l', x) <~ pstep l o ;;
        ' (l'', xs) <~ prun l' os' ;;
        mret (l'', x :: xs)
    end.

  (** *** Where things go wrong *)
  (** How many elements a leaf has. *)
  Definition leaf_size (h : heap body) (a : nat) : N :=
    match nth_error h a with
    | Some (Some (mkCell _ (VLeaf xs) _)) => lenN xs
    | _ => 0
    end.
  (** What programs must avoid.  Exceptions when a flex_vector is grown or cut in place
      (operations.hpp:704-711, 964-984), or one that is only a tail is appended in place and
      does not fit (rrbtree.hpp:829-831, 1107-1109); a container concatenated in place to itself
      (rrbtree.hpp:786, 913, 1055, 1191); an rvalue whose tail is full prepended to one that is only
      a tail (rrbtree.hpp:1201-1208).  The properties show that the exceptions and the rvalue are
      harmful. *)
  Definition hazard (l : list vvar) (h : heap body) (o : pop T) : Prop :=
    match o with
    | PMutate true _ (VPush _ | VTake _) f => f <> []
    | PConcat m i j f =>
        match vvar_at l i, vvar_at l j with
        | HHas true x, HHas true y =>
            match m with
            | CNew => False
            | CAppend | CAppendMove =>
                i = j \/
                (f <> [] /\ leaf_size h (ht_tail y) = ht_size y /\
                 lwidth BL < leaf_size h (ht_tail x) + ht_size y)
            | CPrepend => i = j
            | CPrependMove =>
                i = j \/
                (0 < ht_size x /\ 0 < ht_size y /\
                 leaf_size h (ht_tail x) = lwidth BL /\ leaf_size h (ht_tail y) = ht_size y)
            end
        | _, _ => False
        end
    | _ => False
    end.
  Fixpoint careful (l : list vvar) (os : list (pop T)) (h : heap body) : Prop :=
    match os with
    | [] => True
    | o :: os' => ~ hazard l h o /\ forall l' x h', pstep l o h = Ok ((l', x), h') -> careful l' os' h'
    end.

  (** Memory when the program starts: the static empty root and tail of rbtree
      (rbtree.hpp:35-53) and of rrbtree (rrbtree.hpp:49-67), each with one reference of its
      own. *)
  Definition vstart : heap body :=
    [Some (mkCell 1 VInner []); Some (mkCell 1 (VLeaf []) []);
     Some (mkCell 1 VInner []); Some (mkCell 1 (VLeaf []) [])].
End Prog.
(** Where they are. *)
Definition root0 (rx : bool) : nat := if rx then 2%nat else 0%nat.
Definition tail0 (rx : bool) : nat := if rx then 3%nat else 1%nat.
