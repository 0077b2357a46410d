(** Boxes of several threads: the functions of box.hpp with one access to the memory per step.

    Source: immer/box.hpp:75-180, as in [Box].  Simplification: the value in a box is read or
    written by one step. *)
From Coq Require Import List Arith Bool.
From Verif Require Import Common RcHeap Conc BoxSpec Box.
Import ListNotations.

Section Box.
Context {V : Type}.
Variables eqb neb ltb : V -> V -> bool.
Notation prog := (prog V).

(** impl_ of a variable that is alive, and impl_ dereferenced. *)
Definition t_impl (l : vars) (i : nat) : prog (option nat) :=
  match nth_error l i with Some (Some p) => Done p | _ => Fail end.
Definition t_deref (p : option nat) : prog nat := match p with Some a => Done a | None => Fail end.
(** box(Arg&&): 75-80. *)
Definition t_make (v : V) : prog (option nat) := a <-- mk v [] ;; Done (Some a).
(** box(const box&): 99-103. *)
Definition t_copy (p : option nat) : prog (option nat) :=
  a <-- t_deref p ;; _ <-- up a ;; Done (Some a).
(** ~box: 115-121. *)
Definition t_drop (p : option nat) : prog unit :=
  match p with
  | None => Done tt
  | Some a => last <-- dn a ;; if last : bool then fr a else Done tt
  end.
(** get: 124. *)
Definition t_get (p : option nat) : prog V := a <-- t_deref p ;; c <-- ld a ;; Done (c_body c).
(** update const&: 150-154. *)
Definition t_update (p : option nat) (f : V -> V) : prog (option nat) :=
  v <-- t_get p ;; t_make (f v).
(** update &&: 155-163. *)
Definition t_update_rv (p : option nat) (f : V -> V) : prog (option nat) :=
  a <-- t_deref p ;;
  u <-- uq a ;;
  if u : bool then
    c <-- ld a ;; _ <-- wr a (f (c_body c)) (c_kids c) ;; Done (Some a)
  else
    v <-- t_get p ;; q <-- t_make (f v) ;; _ <-- t_drop p ;; Done q.
(** operator==, !=, <: 166-180; [s] is the result for one and the same block. *)
Definition t_compare (s : bool) (cmp : V -> V -> bool) (p q : option nat) : prog bool :=
  if same p q then Done s else v <-- t_get p ;; w <-- t_get q ;; Done (cmp v w).

(** One statement of a thread, and a thread that starts with the variables [l]. *)
Definition t_step (l : vars) (o : bop V) : prog (vars * bobs V) :=
  match o with
  | BNew v => p <-- t_make v ;; Done (l ++ [Some p], ONone)
  | BCopy i => p <-- t_impl l i ;; q <-- t_copy p ;; Done (l ++ [Some q], ONone)
  (* box(box&&): 98 *)
  | BMove i => p <-- t_impl l i ;; Done (update_at i (Some None) l ++ [Some p], ONone)
  | BUpdate i f => p <-- t_impl l i ;; q <-- t_update p f ;; Done (l ++ [Some q], ONone)
  (* operator=(const box&): 109-114 *)
  | BAssign i j =>
      p <-- t_impl l i ;; q <-- t_impl l j ;;
      aux <-- t_copy q ;; _ <-- t_drop p ;; Done (update_at i (Some aux) l, ONone)
  (* operator=(box&&): 104-108 *)
  | BMoveAssign i j =>
      p <-- t_impl l i ;; q <-- t_impl l j ;;
      Done (update_at i (Some q) (update_at j (Some p) l), ONone)
  | BUpdateRv i f => p <-- t_impl l i ;; q <-- t_update_rv p f ;; Done (update_at i (Some q) l, ONone)
  | BDestroy i => p <-- t_impl l i ;; _ <-- t_drop p ;; Done (update_at i None l, ONone)
  | BGet i => p <-- t_impl l i ;; v <-- t_get p ;; Done (l, OVal v)
  | BEq i j => p <-- t_impl l i ;; q <-- t_impl l j ;; b <-- t_compare true eqb p q ;; Done (l, OBool b)
  | BNe i j => p <-- t_impl l i ;; q <-- t_impl l j ;; b <-- t_compare false neb p q ;; Done (l, OBool b)
  | BLt i j => p <-- t_impl l i ;; q <-- t_impl l j ;; b <-- t_compare false ltb p q ;; Done (l, OBool b)
  end.
Fixpoint t_thread (l : vars) (os : list (bop V)) : prog (vars * list (bobs V)) :=
  match os with
  | [] => Done (l, [])
  | o :: os' =>
      ' (l', x) <-- t_step l o ;;
      ' (l'', xs) <-- t_thread l' os' ;;
      Done (l'', x :: xs)
  end.
End Box.
