(** What programs with arrays and transients should show, on lists: every variable has a
    list of its own, and an operation changes at most the variables it names. *)
From Coq Require Import List NArith Arith Bool.
From Verif Require Import Common NList RrbSpec Array GcArray.
Import ListNotations.
Local Open Scope N_scope.

Section GcArraySpec.
Context {T : Type}.
Variable teq : T -> T -> bool.

(** A variable is an array, a transient, a transient that was moved from (it may only be
    assigned to or destroyed), or gone. *)
Inductive gval : Type := VArr (xs : list T) | VTra (xs : list T) | VMoved | VGone.
Definition gvals := list gval.

Definition contents (vs : gvals) (i : nat) : list T :=
  match nth_error vs i with Some (VArr xs) | Some (VTra xs) => xs | _ => [] end.
Definition is_arr (vs : gvals) (i : nat) : Prop := exists xs, nth_error vs i = Some (VArr xs).
Definition is_tra (vs : gvals) (i : nat) : Prop := exists xs, nth_error vs i = Some (VTra xs).
Definition is_moved (vs : gvals) (i : nat) : Prop := nth_error vs i = Some VMoved.
Definition like (vs : gvals) (i : nat) (xs : list T) : gval :=
  match nth_error vs i with Some (VArr _) => VArr xs | _ => VTra xs end.

(** The variables after an operation that does not throw. *)
Definition gspec (vs : gvals) (o : gop T) : gvals :=
  match o with
  | GNew => vs ++ [VArr []]
  | GFrom xs => vs ++ [VArr xs]
  | GFill n x => vs ++ [VArr (repeat x (N.to_nat n))]
  | GNewT => vs ++ [VTra []]
  | GCopy i => vs ++ [like vs i (contents vs i)]
  | GMove i =>
      (* an array that was moved from is empty *)
      update_at i (match nth_error vs i with Some (VArr _) => VArr [] | _ => VMoved end) vs
        ++ [like vs i (contents vs i)]
  | GAssign i j => update_at i (like vs j (contents vs j)) vs
  | GMoveAssign i j =>
      (* arrays are swapped *)
      update_at j (match nth_error vs i with Some (VArr xs) => VArr xs | _ => VMoved end)
        (update_at i (like vs j (contents vs j)) vs)
  | GDestroy i => update_at i VGone vs
  | GPush i x => vs ++ [VArr (contents vs i ++ [x])]
  | GUpdate i k f => vs ++ [VArr (list_set (contents vs i) (N.to_nat k) f)]
  | GTake i n => vs ++ [VArr (firstn (N.to_nat n) (contents vs i))]
  | GTransient i => vs ++ [VTra (contents vs i)]
  | GTPush i x => update_at i (VTra (contents vs i ++ [x])) vs
  | GTUpdate i k f => update_at i (VTra (list_set (contents vs i) (N.to_nat k) f)) vs
  | GTSet i k x => update_at i (VTra (list_set (contents vs i) (N.to_nat k) (fun _ => x))) vs
  | GTTake i n => update_at i (VTra (firstn (N.to_nat n) (contents vs i))) vs
  | GPersistent i => vs ++ [VArr (contents vs i)]
  | GPersistentRv i => update_at i VMoved vs ++ [VArr (contents vs i)]
  | GAt _ _ | GEq _ _ => vs
  end.

Fixpoint list_eq (xs ys : list T) : bool :=
  match xs, ys with
  | [], [] => true
  | x :: xs', y :: ys' => teq x y && list_eq xs' ys'
  | _, _ => false
  end.
(** What an operation that does not throw shows; [at] throws beyond the end and only
    there. *)
Definition gresult (vs : gvals) (o : gop T) : gout T :=
  match o with
  | GAt i k => match nth_error (contents vs i) (N.to_nat k) with
               | Some x => At x | None => Threw end
  | GEq i j => Equal (list_eq (contents vs i) (contents vs j))
  | _ => Done
  end.
(** Operations that may allocate may throw std::bad_alloc instead. *)
Definition allocates (o : gop T) : bool :=
  match o with
  | GFrom _ | GFill _ _ | GPush _ _ | GUpdate _ _ _ | GTake _ _ | GTPush _ _
  | GTUpdate _ _ _ | GTSet _ _ _ | GTTake _ _ | GPersistent _ | GPersistentRv _ => true
  | _ => false
  end.

(** Preconditions. *)
Definition gvalid (vs : gvals) (o : gop T) : Prop :=
  match o with
  | GNew | GFrom _ | GFill _ _ | GNewT => True
  | GCopy i | GMove i | GAt i _ => is_arr vs i \/ is_tra vs i
  | GDestroy i => is_arr vs i \/ is_tra vs i \/ is_moved vs i
  | GAssign i j | GMoveAssign i j =>
      (is_arr vs i /\ is_arr vs j) \/ ((is_tra vs i \/ is_moved vs i) /\ is_tra vs j)
  | GPush i _ | GTransient i => is_arr vs i
  | GUpdate i k _ => is_arr vs i /\ k < lenN (contents vs i)
  | GTake i n => is_arr vs i /\ n <= lenN (contents vs i)
  | GTPush i _ | GPersistent i | GPersistentRv i => is_tra vs i
  | GTUpdate i k _ | GTSet i k _ => is_tra vs i /\ k < lenN (contents vs i)
  | GTTake i n => is_tra vs i /\ n <= lenN (contents vs i)
  | GEq i j => is_arr vs i /\ is_arr vs j
  end.
End GcArraySpec.
Arguments gval T : clear implicits.
Arguments gvals T : clear implicits.
