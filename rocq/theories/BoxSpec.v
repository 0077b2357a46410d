(** Specification of boxes: a box variable holds a value of its own; nothing is shared. *)
From Coq Require Import List.
From Verif Require Import Common.
Import ListNotations.

Section Spec.
Context {V : Type}.

(** Programs with boxes.  Variables are numbered in the order in which they come to life. *)
Inductive bop : Type :=
| BNew (v : V)                        (* box<V> x{v} *)
| BCopy (i : nat)                     (* box<V> x{b_i} *)
| BMove (i : nat)                     (* box<V> x{std::move(b_i)} *)
| BUpdate (i : nat) (f : V -> V)      (* box<V> x = b_i.update(f) *)
| BAssign (i j : nat)                 (* b_i = b_j *)
| BMoveAssign (i j : nat)             (* b_i = std::move(b_j) *)
| BUpdateRv (i : nat) (f : V -> V)    (* std::move(b_i).update(f) *)
| BDestroy (i : nat)
| BGet (i : nat)                      (* b_i.get() *)
| BEq (i j : nat) | BNe (i j : nat) | BLt (i j : nat).
(** What a program sees. *)
Inductive bobs : Type := ONone | OVal (v : V) | OBool (b : bool).

Variables eqb neb ltb : V -> V -> bool.

(** A variable is gone, or has been moved from, or has a value. *)
Inductive bvar : Type := Gone | Moved | Has (v : V).
Definition var (l : list bvar) (i : nat) : bvar := nth i l Gone.
Definition alive (x : bvar) : bool := match x with Gone => false | _ => true end.

(** [None]: the program is not allowed to do this (it names a variable that is gone or
    needs the value of a box that has been moved from). *)
Definition bspec (l : list bvar) (o : bop) : option (list bvar * bobs) :=
  match o with
  | BNew v => Some (l ++ [Has v], ONone)
  | BCopy i => match var l i with Has v => Some (l ++ [Has v], ONone) | _ => None end
  | BMove i => if alive (var l i) then Some (update_at i Moved l ++ [var l i], ONone) else None
  | BUpdate i f => match var l i with Has v => Some (l ++ [Has (f v)], ONone) | _ => None end
  | BAssign i j =>
      match var l j with
      | Has v => if alive (var l i) then Some (update_at i (Has v) l, ONone) else None
      | _ => None
      end
  | BMoveAssign i j =>
      if alive (var l i) then
        if alive (var l j) then
          Some (update_at i (var l j) (update_at j (var l i) l), ONone)
        else None
      else None
  | BUpdateRv i f =>
      match var l i with Has v => Some (update_at i (Has (f v)) l, ONone) | _ => None end
  | BDestroy i => if alive (var l i) then Some (update_at i Gone l, ONone) else None
  | BGet i => match var l i with Has v => Some (l, OVal v) | _ => None end
  | BEq i j => match var l i, var l j with
               | Has v, Has w => Some (l, OBool (eqb v w)) | _, _ => None end
  | BNe i j => match var l i, var l j with
               | Has v, Has w => Some (l, OBool (neb v w)) | _, _ => None end
  | BLt i j => match var l i, var l j with
               | Has v, Has w => Some (l, OBool (ltb v w)) | _, _ => None end
  end.
Fixpoint bspecs (l : list bvar) (os : list bop) : option (list bvar * list bobs) :=
  match os with
  | [] => Some (l, [])
  | o :: os' =>
      match bspec l o with
      | Some (l', x) =>
          match bspecs l' os' with Some (l'', xs) => Some (l'', x :: xs) | None => None end
      | None => None
      end
  end.
End Spec.
Arguments bop : clear implicits.
Arguments bobs : clear implicits.
Arguments bvar : clear implicits.
