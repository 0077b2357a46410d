(** What immer::map, immer::table and immer::set are at their interface: partial functions from keys
    and sets.  Independent of the model. *)
From Coq Require Import List NArith Bool.
Import ListNotations.

Section Spec.
Context {K V : Type}.
(** Equal. *)
Variable keq : K -> K -> bool.

(** An association of values with keys. *)
Definition assoc : Type := K -> option V.
Definition none : assoc := fun _ => None.
Definition put (k0 : K) (v : V) (m : assoc) : assoc := fun k => if keq k0 k then Some v else m k.
Definition del (k0 : K) (m : assoc) : assoc := fun k => if keq k0 k then None else m k.
Definition or_else (d : V) (o : option V) : V := match o with Some v => v | None => d end.
(** [n] keys have a value. *)
Definition has_keys (n : N) (m : assoc) : Prop :=
  exists ks, ForallOrdPairs (fun a b => keq a b = false) ks /\
    (forall k, m k <> None <-> exists k', In k' ks /\ keq k' k = true) /\ n = N.of_nat (length ks).
(** The same keys, with equal values. *)
Definition same_assoc (veq : V -> V -> bool) (m1 m2 : assoc) : Prop :=
  forall k, match m1 k, m2 k with
            | Some v, Some w => veq v w = true
            | None, None => True
            | _, _ => False
            end.

(** Statements of a map; [d] is V's default value. *)
Inductive mop : Type :=
| MInsert (p : K * V)            (* m = m.insert(p) *)
| MSet (k : K) (v : V)           (* m = m.set(k, v) *)
| MUpdate (k : K) (f : V -> V)   (* m = m.update(k, f) *)
| MUpdateIf (k : K) (f : V -> V) (* m = m.update_if_exists(k, f) *)
| MErase (k : K).                (* m = m.erase(k) *)
Definition mspec (d : V) (m : assoc) (o : mop) : assoc :=
  match o with
  | MInsert (k, v) => put k v m
  | MSet k v => put k v m
  | MUpdate k f => put k (f (or_else d (m k))) m
  | MUpdateIf k f => match m k with Some v => put k (f v) m | None => m end
  | MErase k => del k m
  end.
Definition mspecs (d : V) (os : list mop) : assoc := fold_left (mspec d) os none.

(** Statements of a table of values [V] that have a key; [setkey v k] is [v] with its key replaced. *)
Variable key : V -> K.
Variable setkey : V -> K -> V.
Inductive top : Type :=
| TInsert (v : V)
| TUpdate (k : K) (f : V -> V)
| TUpdateIf (k : K) (f : V -> V)
| TErase (k : K).
Definition tspec (d : V) (m : assoc) (o : top) : assoc :=
  match o with
  | TInsert v => put (key v) v m
  | TUpdate k f => put k (setkey (f (or_else d (m k))) k) m
  | TUpdateIf k f => match m k with Some v => put k (setkey (f v) k) m | None => m end
  | TErase k => del k m
  end.
Definition tspecs (d : V) (os : list top) : assoc := fold_left (tspec d) os none.
End Spec.
Arguments assoc K V : clear implicits.
Arguments mop K V : clear implicits.
Arguments top K V : clear implicits.

(** Statements of a set. *)
Inductive sop (T : Type) : Type := SInsert (x : T) | SErase (x : T).
Arguments SInsert {T}. Arguments SErase {T}.
Definition member {T} (eq : T -> T -> bool) (os : list (sop T)) (x : T) : bool :=
  fold_left (fun b o => match o with SInsert y => eq y x || b | SErase y => negb (eq y x) && b end) os false.
Definition has_members {T} (eq : T -> T -> bool) (n : N) (s : T -> bool) : Prop :=
  exists xs, ForallOrdPairs (fun a b => eq a b = false) xs /\
    (forall x, s x = true <-> exists y, In y xs /\ eq y x = true) /\ n = N.of_nat (length xs).
