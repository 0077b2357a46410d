(** The classes immer::map, immer::table and immer::set: which functions they hand to champ, and what
    their members make of its answers.

    Source: immer/map.hpp, immer/table.hpp, immer/set.hpp.  Simplifications: lookups with other key
    types (is_transparent) are those with a key; constructors from ranges and lists insert one element
    after the other (the in-place functions they use are those of C10); iterators are C03. *)
From Coq Require Import List NArith Bool.
From Verif Require Import Common Champ WrapSpec.
Import ListNotations.

Section Map.
Variable B : N.
Context {K V : Type}.
Variable khash : K -> N.
Variable keq : K -> K -> bool.
(** default_value, map.hpp:103-110. *)
Variable dflt : V.

(** value_t, map.hpp:69; its champ. *)
Definition mmap : Type := @champ (K * V).
(** equal_value, map.hpp:145-151. *)
Definition mveq (veq : V -> V -> bool) (a b : K * V) : bool := keq (fst a) (fst b) && veq (snd a) (snd b).
(** hash_key 120-129 and equal_key 131-143 use .first, project_value 74-84 .second, combine_value
    94-101 makes the pair. *)
Definition mget (m : mmap) (k : K) : res (option (K * V)) := get B fst khash keq m k.
(** count: 250-254. *)
Definition mcount (m : mmap) (k : K) : res N :=
  r <- mget m k ;; Ok (match r with Some _ => 1 | None => 0 end)%N.
(** operator[]: 279-282. *)
Definition mindex (m : mmap) (k : K) : res V :=
  r <- mget m k ;; Ok (match r with Some p => snd p | None => dflt end).
(** at, 307-310: None is std::out_of_range, thrown by error_value (112-118). *)
Definition mat (m : mmap) (k : K) : res (option V) :=
  r <- mget m k ;; Ok (match r with Some p => Some (snd p) | None => None end).
(** find, 341-345: None is null; project_value_ptr 86-92. *)
Definition mfind (m : mmap) (k : K) : res (option V) :=
  r <- mget m k ;; Ok (match r with Some p => Some (snd p) | None => None end).
(** operator==, 368-371. *)
Definition mequal (ptr_eq : node (K * V) -> node (K * V) -> bool) (veq : V -> V -> bool) (a b : mmap) : res bool :=
  equals B ptr_eq (mveq veq) a b.
(** insert 383-386, set 398-401, update 415-420, update_if_exists 434-438, erase 451. *)
Definition mstep (m : mmap) (o : mop K V) : res mmap :=
  match o with
  | MInsert p => add B fst khash keq m p
  | MSet k v => add B fst khash keq m (k, v)
  | MUpdate k f => update B fst khash keq snd pair m k f dflt
  | MUpdateIf k f => update_if_exists B fst khash keq snd pair m k f
  | MErase k => sub B fst khash keq m k
  end.
Definition mrun (os : list (mop K V)) : res mmap := fold_left (fun r o => m <- r ;; mstep m o) os (Ok empty).

(** *** table.hpp: values [V] with a key *)
Variable key : V -> K.             (* KeyFn{}(v) *)
Variable setkey : V -> K -> V.     (* KeyFn{}(v, k) *)
Definition ttable : Type := @champ V.
(** combine_value: 125-132; project_value 111-115 is the identity. *)
Definition tcombine (k : K) (v : V) : V := setkey v k.
Definition tget (t : ttable) (k : K) : res (option V) := get B key khash keq t k.
(** count: 286-290. *)
Definition tcount (t : ttable) (k : K) : res N :=
  r <- tget t k ;; Ok (match r with Some _ => 1 | None => 0 end)%N.
(** operator[]: 315-318; default_value 134-141. *)
Definition tindex (t : ttable) (k : K) : res V :=
  r <- tget t k ;; Ok (match r with Some v => v | None => dflt end).
(** at, 343-346, and find, 354-358. *)
Definition tat (t : ttable) (k : K) : res (option V) := tget t k.
Definition tfind (t : ttable) (k : K) : res (option V) := tget t k.
(** operator==, 378-381: equal_value (180-186) is == of the values; it does not compare the keys. *)
Definition tequal (ptr_eq : node V -> node V -> bool) (veq : V -> V -> bool) (a b : ttable) : res bool :=
  equals B ptr_eq veq a b.
(** insert 395-398, update 419-424, update_if_exists 438-442, erase 455. *)
Definition tstep (t : ttable) (o : top K V) : res ttable :=
  match o with
  | TInsert v => add B key khash keq t v
  | TUpdate k f => update B key khash keq (fun v => v) tcombine t k f dflt
  | TUpdateIf k f => update_if_exists B key khash keq (fun v => v) tcombine t k f
  | TErase k => sub B key khash keq t k
  end.
Definition trun (os : list (top K V)) : res ttable := fold_left (fun r o => t <- r ;; tstep t o) os (Ok empty).
End Map.

Section Set_.
Variable B : N.
Context {T : Type}.
Variable hash : T -> N.
Variable eq : T -> T -> bool.
Definition sset : Type := @champ T.
Definition sget (s : sset) (x : T) : res (option T) := get B (fun x => x) hash eq s x.
(** set.hpp: count 165-169, find 177-181, operator== 204-207 (champ::equals with Equal), insert
    218-221, erase 232-235. *)
Definition scount (s : sset) (x : T) : res N :=
  r <- sget s x ;; Ok (match r with Some _ => 1 | None => 0 end)%N.
Definition sfind (s : sset) (x : T) : res (option T) := sget s x.
Definition sequal (ptr_eq : node T -> node T -> bool) (a b : sset) : res bool := equals B ptr_eq eq a b.
Definition sstep (s : sset) (o : sop T) : res sset :=
  match o with
  | SInsert x => add B (fun x => x) hash eq s x
  | SErase x => sub B (fun x => x) hash eq s x
  end.
Definition srun (os : list (sop T)) : res sset := fold_left (fun r o => s <- r ;; sstep s o) os (Ok empty).
End Set_.
