(** What threads that use arrays should see: every thread has variables of its own, which are
    lists.  Independent of the model of the memory. *)
From Coq Require Import List NArith Arith Bool.
From Verif Require Import Common NList RrbSpec Array ArraySpec.
Import ListNotations.
Local Open Scope N_scope.

Section Spec.
Context {T : Type}.
(** sizeof(T), the offset of the buffer, and the largest request the heap satisfies; whether
    elements are trivially destructible; element equality. *)
Variables esz off limit : N.
Variable trivial : bool.
Variable teq : T -> T -> bool.

(** The statements of Array.v, and those that only look. *)
Inductive aop : Type :=
| AMod (o : op T)
| AAt (i : nat) (k : N)       (* i.at(k) *)
| AEq (i j : nat)             (* i == j *)
| ASize (i : nat).
Inductive aobs : Type := ODone | OThrew | OAt (x : T) | OEq (b : bool) | OSize (n : N).

(** What a thread runs: the next statement may depend on what the last one showed. *)
Inductive client : Type :=
| Stop
| Do (o : aop) (k : aobs -> client).

(** Preconditions, as in ArraySpec; here no variable stands for the empty array.  Shrinking
    elements that have destructors in place is undefined (C32). *)
Definition avalid (vs : vals T) (o : aop) : Prop :=
  match o with
  | AMod o =>
      match o with
      | New => True
      | FromList xs => off + esz * lenN xs < 2^64
      | Fill n _ => off + esz * n < 2^64
      | Copy i | PushBack i _ | Move i | Destroy i | PushBackMut i _ => alive vs i
      | Assign i j | MoveAssign i j => alive vs i /\ alive vs j
      | Update i k _ | UpdateMut i k _ => alive vs i /\ k < lenN (val vs i)
      | Take i n => alive vs i /\ n <= lenN (val vs i)
      | TakeMut i n => alive vs i /\ n <= lenN (val vs i) /\ (trivial = true \/ n = lenN (val vs i))
      end
  | AAt i _ | ASize i => alive vs i
  | AEq i j => alive vs i /\ alive vs j
  end.

(** Statements that may throw std::bad_alloc: those that need a larger block than there was. *)
Definition may_throw (o : op T) : Prop :=
  match o with
  | FromList xs => xs <> [] /\ limit < off + esz * lenN xs
  | Fill n _ => limit < off + esz * n
  | PushBack _ _ | PushBackMut _ _ => True
  | _ => False
  end.
Fixpoint same_list (xs ys : list T) : bool :=
  match xs, ys with
  | [], [] => true
  | x :: xs', y :: ys' => teq x y && same_list xs' ys'
  | _, _ => false
  end.

(** What a statement may show and leave. *)
Inductive aspec (vs : vals T) : aop -> aobs -> vals T -> Prop :=
| s_mod o : aspec vs (AMod o) ODone (spec vs o)
| s_throw o : may_throw o -> aspec vs (AMod o) OThrew vs
| s_at i k x : nth_error (val vs i) (N.to_nat k) = Some x -> aspec vs (AAt i k) (OAt x) vs
| s_out i k : lenN (val vs i) <= k -> aspec vs (AAt i k) OThrew vs
| s_eq i j : aspec vs (AEq i j) (OEq (same_list (val vs i) (val vs j))) vs
| s_size i : aspec vs (ASize i) (OSize (lenN (val vs i))) vs.

(** A thread that keeps to the preconditions, whatever the statements show. *)
Fixpoint keeps_to (vs : vals T) (c : client) : Prop :=
  match c with
  | Stop => True
  | Do o k => avalid vs o /\ forall x vs', aspec vs o x vs' -> keeps_to vs' (k x)
  end.
(** What a whole thread may show and leave. *)
Inductive aspecs : vals T -> client -> list aobs -> vals T -> Prop :=
| ss_stop vs : aspecs vs Stop [] vs
| ss_do vs o k x vs1 xs vs2 : aspec vs o x vs1 -> aspecs vs1 (k x) xs vs2 ->
    aspecs vs (Do o k) (x :: xs) vs2.
End Spec.
Arguments aop T : clear implicits.
Arguments aobs T : clear implicits.
Arguments client T : clear implicits.
