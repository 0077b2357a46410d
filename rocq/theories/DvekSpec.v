(** What programs over dvektor should do: every version is a list.  Independent of the model. *)
From Coq Require Import List Arith Bool.
From Verif Require Import Common.
Import ListNotations.

Section Spec.
Context {T : Type}.
(** Bits of an index per level, and the number of levels there can be. *)
Variables B maxd : nat.

(** Statements; each makes a new version from version [v]. *)
Inductive dop : Type :=
| DPush (v : nat) (x : T)              (* v.push_back(x) *)
| DUpdate (v i : nat) (f : T -> T).    (* v.update(i, f) *)

Definition list_upd (xs : list T) (i : nat) (f : T -> T) : list T :=
  match nth_error xs i with Some x => firstn i xs ++ f x :: skipn (S i) xs | None => xs end.

(** A version: its elements, and where it was last changed. *)
Definition version : Type := list T * nat.
Definition ver (vs : list version) (v : nat) : version := nth v vs ([], 0).
Definition dspec (vs : list version) (o : dop) : list version :=
  match o with
  | DPush v x => let xs := fst (ver vs v) in vs ++ [(xs ++ [x], length xs)]
  | DUpdate v i f => vs ++ [(list_upd (fst (ver vs v)) i f, i)]
  end.
(** Preconditions: the version exists, the position is in it, and there is room for one more. *)
Definition dvalid (vs : list version) (o : dop) : Prop :=
  match o with
  | DPush v _ => v < length vs /\ length (fst (ver vs v)) < 2 ^ (B * maxd)
  | DUpdate v i _ => v < length vs /\ i < length (fst (ver vs v))
  end.
(** When a block of 2^B elements is complete, and there are more than 2^(3B) elements, the next is
    started only with the last change in the block before. *)
Definition calm (vs : list version) (o : dop) : Prop :=
  match o with
  | DPush v _ => let (xs, f) := ver vs v in
      length xs mod 2 ^ B = 0 -> 2 ^ (B * 3) < length xs -> f / 2 ^ B = length xs / 2 ^ B - 1
  | DUpdate _ _ _ => True
  end.
Fixpoint dvalids (vs : list version) (os : list dop) : Prop :=
  match os with [] => True | o :: os' => dvalid vs o /\ dvalids (dspec vs o) os' end.
Fixpoint calms (vs : list version) (os : list dop) : Prop :=
  match os with [] => True | o :: os' => calm vs o /\ calms (dspec vs o) os' end.
Fixpoint dspecs (vs : list version) (os : list dop) : list version :=
  match os with [] => vs | o :: os' => dspecs (dspec vs o) os' end.

(** *** Iterators *)
(** Moves: ++it, --it, and it += d to position [i]. *)
Inductive imove : Type := Fwd | Back | Jump (i : nat).
(** The position after the moves; None when one leaves the range from begin to end of [n]
    elements. *)
Definition ipos1 (n i : nat) (m : imove) : option nat :=
  match m with
  | Fwd => if i <? n then Some (S i) else None
  | Back => if i =? 0 then None else Some (i - 1)
  | Jump j => if j <=? n then Some j else None
  end.
Fixpoint ipos (n i : nat) (ms : list imove) : option nat :=
  match ms with
  | [] => Some i
  | m :: ms' => match ipos1 n i m with Some j => ipos n j ms' | None => None end
  end.
(** The end is not reached by ++ or += when all blocks of 2^B elements are full. *)
Definition shy1 (n i : nat) (m : imove) : Prop :=
  match m with Back => True | _ => ipos1 n i m = Some n -> n mod 2 ^ B <> 0 end.
Fixpoint shy (n i : nat) (ms : list imove) : Prop :=
  match ms with
  | [] => True
  | m :: ms' => shy1 n i m /\ match ipos1 n i m with Some j => shy n j ms' | None => True end
  end.
End Spec.
Arguments dop T : clear implicits.
Arguments version T : clear implicits.
