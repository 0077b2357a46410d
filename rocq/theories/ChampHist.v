(** Histories of modifying operations on the modelled container
    (map.hpp / set.hpp / table.hpp: insert, set, update, update_if_exists, erase all
    forward to champ::add, update, update_if_exists and sub). *)
From Coq Require Import List NArith.
From Verif Require Import Common Champ ChampSpec.
Import ListNotations.

Section Hist.
  Variable B : N.
  Context {T K : Type}.
  Variable key : T -> K.
  Variable khash : K -> N.
  Variable keq : K -> K -> bool.
  Context {V : Type}.
  Variable project : T -> V.
  Variable combine : K -> V -> T.

  (** map.hpp:270-430, set.hpp:160-220, table.hpp:250-420 (persistent overloads). *)
  Definition step (o : op (T := T) (K := K) (V := V)) (c : champ) : res champ :=
    match o with
    | OpInsert v => add B key khash keq c v
    | OpUpdate k fn d => update B key khash keq project combine c k fn d
    | OpUpdateIfExists k fn => update_if_exists B key khash keq project combine c k fn
    | OpErase k => sub B key khash keq c k
    end.

  Definition run (ops : list op) : res champ :=
    fold_left (fun rc o => c <- rc ;; step o c) ops (Ok empty).
End Hist.
