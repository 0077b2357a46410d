(** What a program that uses vectors (or flex_vectors) is supposed to see: every variable
    holds a sequence of its own, and only operations on that variable change it. *)
From Coq Require Import List NArith Bool.
From Verif Require Import Common RrbSpec.
Import ListNotations.

(** Operations on one container.  Set is an update with a constant function; take is also
    resize_down, drop the other half of a split; drop is for flex_vector only.  An update of an
    element that is not there is skipped (the program looks at the size first). *)
Inductive vop (T : Type) : Type :=
| VPush (v : T)                      (* push_back *)
| VUpdate (i : N) (fn : T -> T)      (* update, set, assoc *)
| VTake (n : N)
| VDrop (n : N).
Arguments VPush {T}. Arguments VUpdate {T}. Arguments VTake {T}. Arguments VDrop {T}.
Definition vstep {T} (o : vop T) (l : list T) : list T :=
  match o with
  | VPush v => l ++ [v]
  | VUpdate i fn => list_set l (N.to_nat i) fn
  | VTake n => firstn (N.to_nat n) l
  | VDrop n => skipn (N.to_nat n) l
  end.

(** Concatenations of two flex_vectors, the left one first: to a new one, to the left one, or to
    the right one; the moving ones are given the other one as an rvalue. *)
Inductive cmode : Type := CNew | CAppend | CAppendMove | CPrepend | CPrependMove.

Section Spec.
Context {T : Type}.
(** The numbers of bits per inner node and per leaf; what is left of an element that was
    moved from. *)
Variables B BL : N.
Variable gone : T -> T.

(** Programs.  Variables are numbered in the order in which they come to life; a variable is
    a container or a transient, of the class vector or ([fx] is true) flex_vector.  The list of
    booleans says which of the points of the operation where something can throw do. *)
Inductive pop : Type :=
| PNew (fx : bool)                             (* vector x; *)
| PCopy (i : nat)                              (* vector x{v_i}; v_i.transient(); t_i.persistent() *)
| PMove (i : nat)                              (* vector x{std::move(v_i)}; std::move(t_i).persistent() *)
| PFlex (i : nat)                              (* flex_vector x{v_i}, where v_i is a vector *)
| PAssign (i j : nat)                          (* v_i = v_j *)
| PMoveAssign (i j : nat)                      (* v_i = std::move(v_j) *)
| PDestroy (i : nat)
| PApply (i : nat) (o : vop T) (f : list bool) (* vector x = v_i.push_back(v), ... *)
| PMutate (fx : bool) (i : nat) (o : vop T) (f : list bool)
                                               (* t_i.push_back(v), std::move(v_i).push_back(v), ... *)
| PConcat (m : cmode) (i j : nat) (f : list bool)
    (* x = v_i + v_j; t_i.append(t_j), std::move(v_i) + v_j; t_i.append(std::move(t_j)),
       std::move(v_i) + std::move(v_j); t_j.prepend(t_i), v_i + std::move(v_j);
       t_j.prepend(std::move(t_i)) *)
| PGet (i : nat) (k : N)                       (* v_i.at(k) *)
| PSize (i : nat).                             (* v_i.size() *)
(** What a program sees: nothing, an exception, an exception of the function that an update in
    place was applying to an element, an operation that the depth of the tree does not
    support, an element, a size, the number of elements moved out of an argument. *)
Inductive pobs : Type := SNone | SThrew | SBroke | SDeep (d : nat) | SElem (v : T) | SSize (n : N) | SMoved (k : N).

(** A variable that is gone (or never came to life, because an exception left its
    initializer), or one with a class and elements. *)
Inductive sq : Type := QGone | QHas (fx : bool) (l : list T).
Definition sq_at (s : list sq) (i : nat) : sq := nth i s QGone.
(** drop is a member of flex_vector only. *)
Definition offers (fx : bool) (o : vop T) : bool := match o with VDrop _ => fx | _ => true end.
Definition same (a b : bool) : bool := Bool.eqb a b.

(** [s] after [o], which was seen to end with [x].  A statement about a variable that is not
    there, or not of the right class, is skipped. *)
Definition pspec (s : list sq) (o : pop) (x : pobs) : list sq :=
  match o with
  | PNew fx => s ++ [QHas fx []]
  | PCopy i => s ++ [sq_at s i]
  | PMove i => match sq_at s i with
               | QGone => s ++ [QGone]
               | QHas fx l => update_at i (QHas fx []) s ++ [QHas fx l]
               end
  | PFlex i => match sq_at s i with
               | QHas false l => s ++ [QHas true l]
               | _ => s ++ [QGone]
               end
  | PAssign i j => match sq_at s i, sq_at s j with
                   | QHas fx _, QHas fy l => if same fx fy then update_at i (QHas fy l) s else s
                   | _, _ => s
                   end
  | PMoveAssign i j => match sq_at s i, sq_at s j with
                       | QHas fx k, QHas fy l =>
                           if same fx fy then update_at i (QHas fy l) (update_at j (QHas fx k) s) else s
                       | _, _ => s
                       end
  | PDestroy i => update_at i QGone s
  | PApply i o _ => match sq_at s i with
                    | QHas fx l =>
                        match offers fx o, x with
                        | true, SNone => s ++ [QHas fx (vstep o l)]
                        | _, _ => s ++ [QGone]
                        end
                    | QGone => s ++ [QGone]
                    end
  | PMutate fx i o _ =>
      match sq_at s i with
      | QHas fy l =>
          if same fx fy && offers fx o then
            match x, o with
            | SNone, _ => update_at i (QHas fx (vstep o l)) s
            (* the element was moved from *)
            | SBroke, VUpdate k _ => update_at i (QHas fx (list_set l (N.to_nat k) gone)) s
            | _, _ => s
            end
          else s
      | QGone => s
      end
  | PConcat m i j _ =>
      match sq_at s i, sq_at s j with
      | QHas true a, QHas true b =>
          match m, x with
          | CNew, SNone => s ++ [QHas true (a ++ b)]
          | CNew, _ => s ++ [QGone]
          | (CAppend | CAppendMove), SNone => update_at i (QHas true (a ++ b)) s
          | CAppendMove, SMoved k =>
              update_at i (QHas true (a ++ b))
                (update_at j (QHas true (map gone (firstn (N.to_nat k) b) ++ skipn (N.to_nat k) b)) s)
          | (CPrepend | CPrependMove), SNone => update_at j (QHas true (a ++ b)) s
          | _, _ => s
          end
      | _, _ => match m with CNew => s ++ [QGone] | _ => s end
      end
  | PGet _ _ | PSize _ => s
  end.
(** When the depth of a tree (the number of levels of inner nodes below the root) is too much
    to descend, and to drop elements or concatenate it to another; the tree of a vector is as deep as this only when it has as
    many elements as there are in a full subtree of the root. *)
Definition deep_get (d : nat) (fx : bool) (l : list T) : Prop :=
  (6 <= d)%nat /\ (fx = false -> (2 ^ (BL + N.of_nat d * B) <= N.of_nat (length l))%N).
Definition deep_drop (d : nat) (l : list T) : Prop :=
  (32 <= BL + N.of_nat d * B)%N \/ (2 ^ 32 < N.of_nat (length l))%N.
(** What may be seen when [o] runs in [s]. *)
Definition psees (s : list sq) (o : pop) (x : pobs) : Prop :=
  match o, x with
  | (PApply _ _ f | PMutate _ _ _ f | PConcat _ _ _ f), SThrew => f <> []
  | PMutate _ i (VUpdate k _) f, SBroke =>
      f <> [] /\ exists fx l, sq_at s i = QHas fx l /\ (k < N.of_nat (length l))%N
  | (PApply i (VDrop _) _ | PMutate _ i (VDrop _) _), SDeep d =>
      exists l, sq_at s i = QHas true l /\ deep_drop d l
  | PConcat _ i j _, SDeep d => exists l, sq_at s j = QHas true l /\ deep_drop d l
  | PConcat CAppendMove i j _, SMoved k => exists l, sq_at s j = QHas true l /\ (0 < k <= N.of_nat (length l))%N
  | PGet i k, SElem v => exists fx l, sq_at s i = QHas fx l /\ nth_error l (N.to_nat k) = Some v
  (* std::out_of_range *)
  | PGet i k, SThrew => exists fx l, sq_at s i = QHas fx l /\ (N.of_nat (length l) <= k)%N
  | PGet i k, SDeep d => exists fx l, sq_at s i = QHas fx l /\ (k < N.of_nat (length l))%N /\ deep_get d fx l
  | PSize i, SSize n => exists fx l, sq_at s i = QHas fx l /\ n = N.of_nat (length l)
  | PGet i _, SNone | PSize i, SNone => sq_at s i = QGone
  | PGet _ _, _ | PSize _, _ => False
  | _, SNone => True
  | _, _ => False
  end.
(** Observations [xs] of the program [os] started in [s], which ends in [s']. *)
Fixpoint pspecs (s : list sq) (os : list pop) (xs : list pobs) (s' : list sq) : Prop :=
  match os, xs with
  | [], [] => s' = s
  | o :: os', x :: xs' => psees s o x /\ pspecs (pspec s o x) os' xs' s'
  | _, _ => False
  end.

(** The points of a statement that throw. *)
Definition pfates (o : pop) : list bool :=
  match o with PApply _ _ f | PMutate _ _ _ f | PConcat _ _ _ f => f | _ => [] end.
(** Growing or cutting a flex_vector in place. *)
Definition grows_in_place (o : pop) : bool :=
  match o with
  | PMutate fx _ (VPush _ | VTake _) _ => fx
  | PConcat (CAppend | CAppendMove) _ _ _ => true
  | _ => false
  end.
(** A container is not concatenated in place to itself (rrbtree.hpp:786, 913, 1055, 1191), and
    a transient is not given to prepend as an rvalue. *)
Definition joins_well (o : pop) : Prop :=
  match o with PConcat m i j _ => (m = CNew \/ i <> j) /\ m <> CPrependMove | _ => True end.
(** Inner nodes have four children at least when there is a concatenation at all: the code
    asserts so (operations.hpp:1834). *)
Definition wide (o : pop) : Prop := match o with PConcat _ _ _ _ => (2 <= B)%N | _ => True end.
End Spec.
Arguments pop : clear implicits.
Arguments pobs : clear implicits.
Arguments sq : clear implicits.
Arguments PNew {T}. Arguments PCopy {T}. Arguments PMove {T}. Arguments PFlex {T}. Arguments PAssign {T}.
Arguments PMoveAssign {T}. Arguments PDestroy {T}. Arguments PApply {T}.
Arguments PMutate {T}. Arguments PConcat {T}. Arguments PGet {T}. Arguments PSize {T}.
Arguments SNone {T}. Arguments SThrew {T}. Arguments SBroke {T}. Arguments SDeep {T}. Arguments SElem {T}. Arguments SSize {T}. Arguments SMoved {T}.
Arguments QGone {T}. Arguments QHas {T}.
