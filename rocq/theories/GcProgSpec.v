(** What a program that uses flex_vectors and their transients is supposed to see under garbage
    collection: every variable holds a sequence of its own, and only statements about that
    variable change it. *)
From Coq Require Import List NArith Bool.
From Verif Require Import Common RrbSpec.
Import ListNotations.

(** Statements.  Variables are numbered in the order in which they come to life; a variable is a
    flex_vector or a flex_vector_transient.  A statement about a variable that is not there or not
    of the right class is skipped, and so is an update of an element that is not there (the program
    looks first); a variable that would be initialized by such a statement does not come to life. *)
Inductive qop (T : Type) : Type :=
| QNew                                  (* flex_vector x; *)
| QTransient (i : nat)                  (* v_i.transient() *)
| QPersistent (i : nat)                 (* t_i.persistent() *)
| QFinish (i : nat)                     (* std::move(t_i).persistent() *)
| QCopy (i : nat)                       (* flex_vector x{v_i}; flex_vector_transient x{t_i} *)
| QMove (i : nat)                       (* the same with std::move *)
| QAssign (i j : nat)                   (* v_i = v_j, t_i = t_j *)
| QMoveAssign (i j : nat)               (* v_i = std::move(v_j), t_i = std::move(t_j) *)
| QPushed (i : nat) (v : T)             (* flex_vector x = v_i.push_back(v) *)
| QPush (i : nat) (v : T)               (* t_i.push_back(v) *)
| QUpdate (i : nat) (k : N) (fn : T -> T) (* t_i.update(k, fn), t_i.set(k, v) *)
| QAppend (mv : bool) (i j : nat)       (* t_i.append(t_j), t_i.append(std::move(t_j)) *)
| QPrepend (mv : bool) (i j : nat)      (* t_j.prepend(t_i), t_j.prepend(std::move(t_i)) *)
| QTake (i : nat) (n : N)               (* t_i.take(n) *)
| QDrop (i : nat) (n : N)               (* t_i.drop(n) *)
| QTaken (i : nat) (n : N)              (* flex_vector x = v_i.take(n) *)
| QDropped (i : nat) (n : N).           (* flex_vector x = v_i.drop(n) *)
Arguments QNew {T}. Arguments QTransient {T}. Arguments QPersistent {T}. Arguments QFinish {T}. Arguments QCopy {T}.
Arguments QMove {T}. Arguments QAssign {T}. Arguments QMoveAssign {T}. Arguments QPushed {T}. Arguments QPush {T}.
Arguments QUpdate {T}. Arguments QAppend {T}. Arguments QPrepend {T}. Arguments QTake {T}. Arguments QDrop {T}. Arguments QTaken {T}. Arguments QDropped {T}.

(** What a program sees: nothing, or that the right operand of a concatenation, or the vector that
    elements are dropped from, is deeper or larger than what is supported.  Then nothing is
    concatenated or dropped. *)
Inductive qobs : Type := ONone | ODeep (d : nat).

(** A variable: not there; a flex_vector with these elements; a transient with these elements; a
    transient that was moved from, about which nothing is said. *)
Inductive qv (T : Type) : Type := XGone | XVec (l : list T) | XTra (l : list T) | XMoved.
Arguments XGone {T}. Arguments XVec {T}. Arguments XTra {T}. Arguments XMoved {T}.

Section Spec.
Context {T : Type}.
Variables B BL : N.
Definition qv_at (s : list (qv T)) (i : nat) : qv T := nth i s XGone.

(** [s] after [o], which was seen to end with [x]. *)
Definition qspec (s : list (qv T)) (o : qop T) (x : qobs) : list (qv T) :=
  match o with
  | QNew => s ++ [XVec []]
  | QTransient i => s ++ [match qv_at s i with XVec l => XTra l | _ => XGone end]
  | QPersistent i => s ++ [match qv_at s i with XTra l => XVec l | _ => XGone end]
  | QFinish i => match qv_at s i with
                 | XTra l => update_at i XMoved s ++ [XVec l]
                 | _ => s ++ [XGone]
                 end
  | QCopy i => s ++ [qv_at s i]
  | QMove i => match qv_at s i with
               | XTra l => update_at i XMoved s ++ [XTra l]
               | XVec l => update_at i (XVec []) s ++ [XVec l]
               | _ => s ++ [XGone]
               end
  | QAssign i j => match qv_at s i, qv_at s j with
                   | XVec _, XVec l => update_at i (XVec l) s
                   | (XTra _ | XMoved), XTra l => update_at i (XTra l) s
                   | _, _ => s
                   end
  | QMoveAssign i j =>
      if Nat.eqb i j then s
      else match qv_at s i, qv_at s j with
           | XVec k, XVec l => update_at i (XVec l) (update_at j (XVec k) s)
           | (XTra _ | XMoved), XTra l => update_at i (XTra l) (update_at j XMoved s)
           | _, _ => s
           end
  | QPushed i v => s ++ [match qv_at s i with XVec l => XVec (l ++ [v]) | _ => XGone end]
  | QPush i v => match qv_at s i with XTra l => update_at i (XTra (l ++ [v])) s | _ => s end
  | QUpdate i k fn => match qv_at s i with XTra l => update_at i (XTra (list_set l (N.to_nat k) fn)) s | _ => s end
  | QAppend mv i j =>
      match qv_at s i, qv_at s j, x with
      | XTra a, XTra b, ONone => let s' := update_at i (XTra (a ++ b)) s in if mv then update_at j XMoved s' else s'
      | _, _, _ => s
      end
  | QPrepend mv i j =>
      match qv_at s i, qv_at s j, x with
      | XTra a, XTra b, ONone => let s' := update_at j (XTra (a ++ b)) s in if mv then update_at i XMoved s' else s'
      | _, _, _ => s
      end
  | QTake i n => match qv_at s i with XTra l => update_at i (XTra (firstn (N.to_nat n) l)) s | _ => s end
  | QDrop i n => match qv_at s i, x with XTra l, ONone => update_at i (XTra (skipn (N.to_nat n) l)) s | _, _ => s end
  | QTaken i n => s ++ [match qv_at s i with XVec l => XVec (firstn (N.to_nat n) l) | _ => XGone end]
  | QDropped i n =>
      s ++ [match qv_at s i, x with XVec l, ONone => XVec (skipn (N.to_nat n) l) | XVec l, ODeep _ => XVec l | _, _ => XGone end]
  end.
(** The depth of a tree (the number of levels of inner nodes below the root) is too much to
    concatenate it to another or to drop elements, or its size is. *)
Definition too_deep (d : nat) (l : list T) : Prop :=
  (32 <= BL + N.of_nat d * B)%N \/ (2 ^ 32 < N.of_nat (length l))%N.
Definition qsees (s : list (qv T)) (o : qop T) (x : qobs) : Prop :=
  match x with
  | ONone => True
  | ODeep d => match o with
               | QAppend _ _ j | QPrepend _ _ j | QDrop j _ => exists l, qv_at s j = XTra l /\ too_deep d l
               | QDropped j _ => exists l, qv_at s j = XVec l /\ too_deep d l
               | _ => False
               end
  end.
(** Observations [xs] of the program [os] started in [s], which ends in [s']. *)
Fixpoint qspecs (s : list (qv T)) (os : list (qop T)) (xs : list qobs) (s' : list (qv T)) : Prop :=
  match os, xs with
  | [], [] => s' = s
  | o :: os', x :: xs' => qsees s o x /\ qspecs (qspec s o x) os' xs' s'
  | _, _ => False
  end.
End Spec.

(** Programs that leave transients alone once they were moved from, except for assigning to them,
    and that do not concatenate a transient to itself (rrbtree.hpp:786, 913, 1055, 1191).  Whether
    a program is one of these is seen without running it, from the classes of the variables. *)
Inductive qk : Type := KGone | KVec | KTra | KMoved.
Definition qk_at (s : list qk) (i : nat) : qk := nth i s KGone.
Definition classes {T} (s : list qk) (o : qop T) : list qk :=
  match o with
  | QNew => s ++ [KVec]
  | QTransient i => s ++ [match qk_at s i with KVec => KTra | _ => KGone end]
  | QPersistent i => s ++ [match qk_at s i with KTra => KVec | _ => KGone end]
  | QFinish i => match qk_at s i with KTra => update_at i KMoved s ++ [KVec] | _ => s ++ [KGone] end
  | QCopy i => s ++ [qk_at s i]
  | QMove i => match qk_at s i with KTra => update_at i KMoved s ++ [KTra] | k => s ++ [k] end
  | QAssign i j => match qk_at s i, qk_at s j with KMoved, KTra => update_at i KTra s | _, _ => s end
  | QMoveAssign i j =>
      if Nat.eqb i j then s
      else match qk_at s i, qk_at s j with
           | (KTra | KMoved), KTra => update_at i KTra (update_at j KMoved s)
           | _, _ => s
           end
  | QPushed i _ | QTaken i _ | QDropped i _ => s ++ [match qk_at s i with KVec => KVec | _ => KGone end]
  | QPush _ _ | QUpdate _ _ _ | QTake _ _ | QDrop _ _ => s
  | QAppend mv i j => match qk_at s i, qk_at s j with KTra, KTra => if mv then update_at j KMoved s else s | _, _ => s end
  | QPrepend mv i j => match qk_at s i, qk_at s j with KTra, KTra => if mv then update_at i KMoved s else s | _, _ => s end
  end.
Definition moved (k : qk) : bool := match k with KMoved => true | _ => false end.
Definition tidy1 {T} (s : list qk) (o : qop T) : bool :=
  match o with
  | QNew => true
  | QTransient i | QPersistent i | QFinish i | QCopy i | QMove i | QPushed i _ | QPush i _ | QUpdate i _ _
  | QTake i _ | QDrop i _ | QTaken i _ | QDropped i _ =>
      negb (moved (qk_at s i))
  | QAssign _ j | QMoveAssign _ j => negb (moved (qk_at s j))
  | QAppend _ i j | QPrepend _ i j => negb (moved (qk_at s i)) && negb (moved (qk_at s j)) && negb (Nat.eqb i j)
  end.
Fixpoint tidy {T} (s : list qk) (os : list (qop T)) : bool :=
  match os with [] => true | o :: os => tidy1 s o && tidy (classes s o) os end.
