(** Model of box.hpp on counted memory: one thread, any number of box variables. *)
From Coq Require Import List Arith Bool.
From Verif Require Import Common RcHeap BoxSpec.
Import ListNotations.

(** A box variable (box.hpp:36-53): [None] when its life is over, otherwise the pointer
    [impl_], which is null in a box that was moved from. *)
Notation bx := (option (option nat)).
Notation vars := (list bx).

Section Box.
Context {V : Type}.
Variables eqb neb ltb : V -> V -> bool.

Notation M := (M V).

(** impl_ of a variable that is alive. *)
Definition impl (l : vars) (i : nat) : M (option nat) :=
  match nth_error l i with Some (Some p) => mret p | _ => mub end.
(** impl_ dereferenced: null is undefined. *)
Definition deref (p : option nat) : M nat := match p with Some a => mret a | None => mub end.

(** box(Arg&&): 75-80 over make: detail/util.hpp:171-182. *)
Definition make_box (v : V) : M (option nat) := a <~ new v [] ;; mret (Some a).
(** box(const box&): 99-103. *)
Definition copy_box (p : option nat) : M (option nat) :=
  a <~ deref p ;; _ <~ inc a ;; mret (Some a).
(** ~box: 115-121. *)
Definition drop_box (p : option nat) : M unit :=
  match p with
  | None => mret tt
  | Some a => last <~ dec a ;; if last then free a else mret tt
  end.
(** get: 124. *)
Definition get_box (p : option nat) : M V := a <~ deref p ;; c <~ load a ;; mret (c_body c).
(** update const&: 150-154; the result of the function is converted to a box. *)
Definition update_box (p : option nat) (f : V -> V) : M (option nat) :=
  v <~ get_box p ;; make_box (f v).
(** update &&: 155-163; the assignment is box& operator=(box&&) (104-108) from a temporary,
    which leaves the old pointer in the temporary. *)
Definition update_rv (p : option nat) (f : V -> V) : M (option nat) :=
  a <~ deref p ;;
  u <~ unique a ;;
  if u then
    c <~ load a ;; _ <~ store a (mkCell (c_rc c) (f (c_body c)) (c_kids c)) ;; mret (Some a)
  else
    v <~ get_box p ;; q <~ make_box (f v) ;; _ <~ drop_box p ;; mret q.
(** operator==, !=, <: 166-180. *)
Definition same (p q : option nat) : bool :=
  match p, q with Some a, Some b => a =? b | None, None => true | _, _ => false end.
Definition eq_box (p q : option nat) : M bool :=
  if same p q then mret true else v <~ get_box p ;; w <~ get_box q ;; mret (eqb v w).
Definition ne_box (p q : option nat) : M bool :=
  if same p q then mret false else v <~ get_box p ;; w <~ get_box q ;; mret (neb v w).
Definition lt_box (p q : option nat) : M bool :=
  if same p q then mret false else v <~ get_box p ;; w <~ get_box q ;; mret (ltb v w).

(** One statement of a program. *)
Definition bstep (l : vars) (o : bop V) : M (vars * bobs V) :=
  match o with
  | BNew v => p <~ make_box v ;; mret (l ++ [Some p], ONone)
  | BCopy i => p <~ impl l i ;; q <~ copy_box p ;; mret (l ++ [Some q], ONone)
  (* box(box&&): 98, from impl_ = nullptr *)
  | BMove i => p <~ impl l i ;; mret (update_at i (Some None) l ++ [Some p], ONone)
  | BUpdate i f => p <~ impl l i ;; q <~ update_box p f ;; mret (l ++ [Some q], ONone)
  (* operator=(const box&): 109-114; the old pointer dies with aux *)
  | BAssign i j =>
      p <~ impl l i ;; q <~ impl l j ;;
      aux <~ copy_box q ;; _ <~ drop_box p ;; mret (update_at i (Some aux) l, ONone)
  (* operator=(box&&): 104-108 *)
  | BMoveAssign i j =>
      p <~ impl l i ;; q <~ impl l j ;;
      mret (update_at i (Some q) (update_at j (Some p) l), ONone)
  | BUpdateRv i f => p <~ impl l i ;; q <~ update_rv p f ;; mret (update_at i (Some q) l, ONone)
  | BDestroy i => p <~ impl l i ;; _ <~ drop_box p ;; mret (update_at i None l, ONone)
  | BGet i => p <~ impl l i ;; v <~ get_box p ;; mret (l, OVal v)
  | BEq i j => p <~ impl l i ;; q <~ impl l j ;; b <~ eq_box p q ;; mret (l, OBool b)
  | BNe i j => p <~ impl l i ;; q <~ impl l j ;; b <~ ne_box p q ;; mret (l, OBool b)
  | BLt i j => p <~ impl l i ;; q <~ impl l j ;; b <~ lt_box p q ;; mret (l, OBool b)
  end.
Fixpoint brun (l : vars) (os : list (bop V)) : M (vars * list (bobs V)) :=
  match os with
  | [] => mret (l, [])
  | o :: os' =>
      ' (l', x) <~ bstep l o ;;
      ' (l'', xs) <~ brun l' os' ;;
      mret (l'', x :: xs)
  end.
End Box.
