(** What a program that uses maps (or sets, or tables) is supposed to see: every variable
    holds contents of its own, and only operations on that variable change them. *)
From Coq Require Import List NArith.
From Verif Require Import Common ChampSpec.
Import ListNotations.

Section Spec.
Context {T K V : Type}.
Variable key : T -> K.
Variable keq : K -> K -> bool.
Variable project : T -> V.
Variable combine : K -> V -> T.
Notation op := (@op T K V).
Notation amap := (@amap T K).

(** Programs.  Variables are numbered in the order in which they come to life; a variable is
    a container or a transient.  The list of booleans says which of the points of the
    operation where something can throw do. *)
Inductive mop : Type :=
| MNew                                        (* map x; *)
| MCopy (i : nat)                             (* map x{m_i}; m_i.transient(); t_i.persistent() *)
| MMove (i : nat)                             (* map x{std::move(m_i)}; std::move(t_i).persistent() *)
| MAssign (i j : nat)                         (* m_i = m_j *)
| MMoveAssign (i j : nat)                     (* m_i = std::move(m_j) *)
| MDestroy (i : nat)
| MApply (i : nat) (o : op) (f : list bool)   (* map x = m_i.insert(v), ... *)
| MMutate (i : nat) (o : op) (f : list bool)  (* t_i.insert(v), std::move(m_i).insert(v), ... *)
| MGet (i : nat) (k : K) (f : list bool)      (* m_i.find(k) *)
| MSize (i : nat).                            (* m_i.size() *)
(** What a program sees. *)
Inductive mobs : Type := ONone | OThrew | OFound (v : option T) | OSize (n : N).

(** A variable that is gone (or never came to life, because an exception left its
    initializer), one that can only be assigned or destroyed, because an exception left an
    operation that was changing it, or one with contents. *)
Inductive avar : Type := AGone | AAny | AHas (m : amap).
Definition avar_at (l : list avar) (i : nat) : avar := nth i l AGone.

(** [l] after [o], which threw or not; a statement about a variable that is not there, or
    that needs contents where there are none, is skipped. *)
Definition mspec (l : list avar) (o : mop) (threw : bool) : list avar :=
  match o with
  | MNew => l ++ [AHas aempty]
  | MCopy i => l ++ [avar_at l i]
  | MMove i => match avar_at l i with
               | AGone => l ++ [AGone]
               | x => update_at i (AHas aempty) l ++ [x]
               end
  | MAssign i j => match avar_at l i, avar_at l j with
                   | AGone, _ | _, AGone => l
                   | _, x => update_at i x l
                   end
  | MMoveAssign i j => match avar_at l i, avar_at l j with
                       | AGone, _ | _, AGone => l
                       | x, y => update_at i y (update_at j x l)
                       end
  | MDestroy i => update_at i AGone l
  | MApply i o _ => match avar_at l i with
                    | AHas m => l ++ [if threw then AGone else AHas (astep key keq project combine o m)]
                    | _ => l ++ [AGone]
                    end
  | MMutate i o _ => match avar_at l i with
                     | AHas m => update_at i (if threw then AAny
                                              else AHas (astep key keq project combine o m)) l
                     | _ => l
                     end
  | MGet _ _ _ | MSize _ => l
  end.
(** What may be seen when [o] runs in [l]. *)
Definition msees (l : list avar) (o : mop) (x : mobs) : Prop :=
  match o, x with
  | (MApply _ _ f | MMutate _ _ f | MGet _ _ f), OThrew => f <> []
  | MGet i k _, OFound v => exists m, avar_at l i = AHas m /\ v = m k
  | MSize i, OSize n => exists m l', avar_at l i = AHas m /\ lists key keq l' m /\
                                     n = N.of_nat (length l')
  | MGet i _ _, ONone | MSize i, ONone => forall m, avar_at l i <> AHas m
  | MGet _ _ _, _ | MSize _, _ => False
  | _, ONone => True
  | _, _ => False
  end.
Definition is_throw (x : mobs) : bool := match x with OThrew => true | _ => false end.
(** Observations [xs] of the program [os] started in [l], which ends in [l']. *)
Fixpoint mspecs (l : list avar) (os : list mop) (xs : list mobs) (l' : list avar) : Prop :=
  match os, xs with
  | [], [] => l' = l
  | o :: os', x :: xs' => msees l o x /\ mspecs (mspec l o (is_throw x)) os' xs' l'
  | _, _ => False
  end.

(** The points of a statement that throw. *)
Definition mfates (o : mop) : list bool :=
  match o with MApply _ _ f | MMutate _ _ f | MGet _ _ f => f | _ => [] end.
(** In-place removal. *)
Definition erases_in_place (o : mop) : bool :=
  match o with MMutate _ (OpErase _) _ => true | _ => false end.
End Spec.
Arguments mop : clear implicits.
Arguments mobs : clear implicits.
Arguments avar : clear implicits.
Arguments MNew {T K V}. Arguments MCopy {T K V}. Arguments MMove {T K V}. Arguments MAssign {T K V}.
Arguments MMoveAssign {T K V}. Arguments MDestroy {T K V}. Arguments MApply {T K V}.
Arguments MMutate {T K V}. Arguments MGet {T K V}. Arguments MSize {T K V}.
