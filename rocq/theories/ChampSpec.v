(** What immer::map / set / table are supposed to do, independent of the tree:
    a container is a partial function from keys to stored values. *)
From Coq Require Import List NArith Bool.
From Verif Require Import Champ. (* only for the three kinds of diff callback *)
Import ListNotations.

Section Spec.
  Context {T K V : Type}.
  Variable key : T -> K.
  Variable keq : K -> K -> bool.
  Variable project : T -> V.
  Variable combine : K -> V -> T.

  (** User supplied Equal must be an equivalence compatible with Hash, and hashes are
      std::size_t values. *)
  Definition keys_ok (khash : K -> N) : Prop :=
    (forall k, keq k k = true) /\
    (forall a b, keq a b = true -> keq b a = true) /\
    (forall a b c, keq a b = true -> keq b c = true -> keq a c = true) /\
    (forall a b, keq a b = true -> khash a = khash b) /\
    (forall k, (khash k < 2 ^ 64)%N).

  (** A modifying operation of a history. *)
  Inductive op : Type :=
  | OpInsert (v : T)
  | OpUpdate (k : K) (fn : V -> V) (dflt : V)
  | OpUpdateIfExists (k : K) (fn : V -> V)
  | OpErase (k : K).

  (** The stored value for a key, or nothing. *)
  Definition amap : Type := K -> option T.

  Definition aempty : amap := fun _ => None.
  Definition aput (k0 : K) (v : T) (m : amap) : amap :=
    fun k => if keq k0 k then Some v else m k.
  Definition adel (k0 : K) (m : amap) : amap :=
    fun k => if keq k0 k then None else m k.

  Definition astep (o : op) (m : amap) : amap :=
    match o with
    | OpInsert v => aput (key v) v m
    | OpUpdate k fn d =>
      aput k (combine k (fn (match m k with Some w => project w | None => d end))) m
    | OpUpdateIfExists k fn =>
      match m k with
      | Some w => aput k (combine k (fn (project w))) m
      | None => m
      end
    | OpErase k => adel k m
    end.

  (** The contents after a history, oldest operation first. *)
  Definition ahistory (ops : list op) : amap := fold_left (fun m o => astep o m) ops aempty.

  (** A list of values with pairwise different keys. *)
  Definition distinct_keys (l : list T) : Prop :=
    ForallOrdPairs (fun a b => keq (key a) (key b) = false) l.

  (** [l] lists the contents of [m], each entry exactly once, in some order. *)
  Definition lists (l : list T) (m : amap) : Prop :=
    distinct_keys l /\ forall v, In v l <-> m (key v) = Some v.

  (** Same keys, and entries related by the value equality. *)
  Definition same_contents (veq : T -> T -> bool) (m1 m2 : amap) : Prop :=
    forall k, match m1 k, m2 k with
              | Some v, Some w => veq v w = true
              | None, None => True
              | _, _ => False
              end.

  (** The callbacks diff(m1, m2) must make. *)
  Definition expected (veq : T -> T -> bool) (m1 m2 : amap) (e : event) : Prop :=
    match e with
    | Added v => m1 (key v) = None /\ m2 (key v) = Some v
    | Removed v => m1 (key v) = Some v /\ m2 (key v) = None
    | Changed a b => m1 (key a) = Some a /\ m2 (key a) = Some b /\ veq a b = false
    end.

  (** How many listed entries have the hash of [k]. *)
  Definition same_hash (khash : K -> N) (k : K) (l : list T) : nat :=
    length (filter (fun v => N.eqb (khash (key v)) (khash k)) l).
End Spec.

Arguments OpInsert {T K V}. Arguments OpUpdate {T K V}.
Arguments OpUpdateIfExists {T K V}. Arguments OpErase {T K V}.
