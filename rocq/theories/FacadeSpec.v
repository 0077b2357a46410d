(** Programs with any number of iterators over one sequence, that use all operators of random access
    iterators.  Iterators are positions.  Independent of the model. *)
From Coq Require Import List Arith ZArith Bool.
Import ListNotations.

Inductive cmp : Type := Ceq | Cne | Clt | Cle | Cgt | Cge.
(** Statements over variables that are iterators. *)
Inductive fop : Type :=
| FBegin (d : nat) | FEnd (d : nat)      (* d = begin(), d = end() *)
| FPreInc (d s : nat)                    (* d = ++s *)
| FPostInc (d s : nat)                   (* d = s++ *)
| FPreDec (d s : nat) | FPostDec (d s : nat)
| FAddTo (d s : nat) (n : Z)             (* d = (s += n) *)
| FSubFrom (d s : nat) (n : Z)           (* d = (s -= n) *)
| FPlus (d s : nat) (n : Z)              (* d = s + n *)
| FPlusLeft (d : nat) (n : Z) (s : nat)  (* d = n + s *)
| FMinus (d s : nat) (n : Z)             (* d = s - n *)
| FDeref (s : nat)                       (* show *s *)
| FIndex (s : nat) (n : Z)               (* show s[n] *)
| FDiff (a b : nat)                      (* show a - b *)
| FCmp (c : cmp) (a b : nat).            (* show a == b, a != b, a < b, ... *)
Inductive shown (T : Type) : Type := SVal (x : T) | SInt (z : Z) | SBool (b : bool).
Arguments SVal {T}. Arguments SInt {T}. Arguments SBool {T}.

Section Spec.
Context {T : Type}.
Variable xs : list T.
Definition vset {A} (v : nat -> A) (d : nat) (x : A) : nat -> A := fun u => if u =? d then x else v u.
Definition compare_pos (c : cmp) (i j : nat) : bool :=
  match c with
  | Ceq => i =? j | Cne => negb (i =? j) | Clt => i <? j | Cle => i <=? j | Cgt => j <? i | Cge => j <=? i
  end.
(** The position [n] further, if it is in the sequence or its end. *)
Definition moved (i : nat) (n : Z) : option nat :=
  let j := (Z.of_nat i + n)%Z in
  if ((0 <=? j) && (j <=? Z.of_nat (length xs)))%Z then Some (Z.to_nat j) else None.
(** The variables after a statement and what it shows; nothing if it leaves the sequence. *)
Definition fspec (v : nat -> nat) (o : fop) : option ((nat -> nat) * list (shown T)) :=
  let move k i n := match moved i n with Some j => Some (k j, []) | None => None end in
  match o with
  | FBegin d => Some (vset v d 0, [])
  | FEnd d => Some (vset v d (length xs), [])
  | FPreInc d s => move (fun j => vset (vset v s j) d j) (v s) 1%Z
  | FPostInc d s => move (fun j => vset (vset v s j) d (v s)) (v s) 1%Z
  | FPreDec d s => move (fun j => vset (vset v s j) d j) (v s) (-1)%Z
  | FPostDec d s => move (fun j => vset (vset v s j) d (v s)) (v s) (-1)%Z
  | FAddTo d s n => move (fun j => vset (vset v s j) d j) (v s) n
  | FSubFrom d s n => move (fun j => vset (vset v s j) d j) (v s) (- n)%Z
  | FPlus d s n => move (fun j => vset v d j) (v s) n
  | FPlusLeft d n s => move (fun j => vset v d j) (v s) n
  | FMinus d s n => move (fun j => vset v d j) (v s) (- n)%Z
  | FDeref s => match nth_error xs (v s) with Some x => Some (v, [SVal x]) | None => None end
  | FIndex s n =>
    match moved (v s) n with
    | Some j => match nth_error xs j with Some x => Some (v, [SVal x]) | None => None end
    | None => None
    end
  | FDiff a b => Some (v, [SInt (Z.of_nat (v a) - Z.of_nat (v b))])
  | FCmp c a b => Some (v, [SBool (compare_pos c (v a) (v b))])
  end.
(** All variables are begin() at first. *)
Fixpoint fspecs (v : nat -> nat) (os : list fop) : option (list (shown T)) :=
  match os with
  | [] => Some []
  | o :: os' =>
    match fspec v o with
    | Some (v', ys) => match fspecs v' os' with Some zs => Some (ys ++ zs) | None => None end
    | None => None
    end
  end.
End Spec.
