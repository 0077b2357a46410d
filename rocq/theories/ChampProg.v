(** Programs over map variables on counted memory: what map.hpp, set.hpp, table.hpp and their
    transients make of champ.hpp. *)
From Coq Require Import List NArith Arith Bool.
From Verif Require Import Common Champ ChampSpec RcHeap RcExn ChampHeap ChampProgSpec.
Import ListNotations.
Local Open Scope N_scope.

Section Prog.
  Variable B : N.
  Context {T K V : Type}.
  Variable key : T -> K.
  Variable khash : K -> N.
  Variable keq : K -> K -> bool.
  Variable project : T -> V.
  Variable combine : K -> V -> T.
  Variable ct : bool.
  Variable gone : T -> T.
  Variable e0 : nat.

  Notation MM := (M (cbody T)).
  Notation XX := (X (cbody T)).
  Notation op := (@op T K V).

  (** A variable: without a container, with one that an exception left in the middle of a
      change, or with one that can be used.  A transient holds a champ as a container does
      (map.hpp:530-560, map_transient.hpp:305-325). *)
  Inductive mvar : Type := VGone | VSpoilt (c : hchamp) | VHas (c : hchamp).
  Definition mvar_at (l : list mvar) (i : nat) : mvar := nth i l VGone.

  (** insert, set: add; update, update_if_exists, erase (map.hpp:270-430, set.hpp:160-220,
      table.hpp:250-420). *)
  Definition apply_h (o : op) (c : hchamp) : XX hchamp :=
    match o with
    | OpInsert v => upd_h B key khash keq ct (key v) (fun _ => v) (Some v) false c
    | OpUpdate k fn d =>
        upd_h B key khash keq ct k (fun w => combine k (fn (project w))) (Some (combine k (fn d))) true c
    | OpUpdateIfExists k fn =>
        upd_h B key khash keq ct k (fun w => combine k (fn (project w))) None true c
    | OpErase k => sub_h B key khash keq ct e0 k c
    end.
  (** The same on a transient (map_transient.hpp:241-303) or on an rvalue
      (map.hpp:432-520: *_move). *)
  Definition mutate_h (o : op) (c : hchamp) : XX hchamp :=
    match o with
    | OpInsert v => upd_mut B key khash keq ct gone (key v) (fun _ => v) (Some v) false c
    | OpUpdate k fn d =>
        upd_mut B key khash keq ct gone k (fun w => combine k (fn (project w))) (Some (combine k (fn d))) true c
    | OpUpdateIfExists k fn =>
        upd_mut B key khash keq ct gone k (fun w => combine k (fn (project w))) None true c
    | OpErase k => sub_mut B key khash keq ct gone e0 k c
    end.
  (** An operation with its own points where it throws, whose exception the program catches. *)
  Definition catch {A} (f : list bool) (m : XX A) : MM (option A) :=
    fun h => match m f h with
             | Ok (Ret a, _, h') => Ok (Some a, h')
             | Ok (Exn, _, h') => Ok (None, h')
             | UB => UB
             end.

  Definition champ_of (x : mvar) : option hchamp :=
    match x with VGone => None | VSpoilt c | VHas c => Some c end.
  Definition with_champ (x : mvar) (c : hchamp) : mvar :=
    match x with VGone => VGone | VSpoilt _ => VSpoilt c | VHas _ => VHas c end.

  Definition mstep (l : list mvar) (o : mop T K V) : MM (list mvar * mobs T) :=
    match o with
    | MNew => c <~ empty_h e0 ;; mret (l ++ [VHas c], ONone)
    (* champ(const champ&), champ.hpp:155-159 *)
    | MCopy i =>
        match champ_of (mvar_at l i) with
        | Some c => c' <~ copy_h c ;; mret (l ++ [with_champ (mvar_at l i) c'], ONone)
        | None => mret (l ++ [VGone], ONone)
        end
    (* champ(champ&&), champ.hpp:161-165: swapped with a new empty one *)
    | MMove i =>
        match champ_of (mvar_at l i) with
        | Some c => c' <~ empty_h e0 ;; mret (update_at i (VHas c') l ++ [mvar_at l i], ONone)
        | None => mret (l ++ [VGone], ONone)
        end
    (* operator=(const champ&), champ.hpp:167-172: the old contents go away with [next] *)
    | MAssign i j =>
        match champ_of (mvar_at l i), champ_of (mvar_at l j) with
        | Some c, Some d =>
            next <~ copy_h d ;; _ <~ destroy_h B c ;;
            mret (update_at i (with_champ (mvar_at l j) next) l, ONone)
        | _, _ => mret (l, ONone)
        end
    (* operator=(champ&&), champ.hpp:174-178: a swap *)
    | MMoveAssign i j =>
        match champ_of (mvar_at l i), champ_of (mvar_at l j) with
        | Some _, Some _ =>
            mret (update_at i (mvar_at l j) (update_at j (mvar_at l i) l), ONone)
        | _, _ => mret (l, ONone)
        end
    (* ~champ, champ.hpp:187 *)
    | MDestroy i =>
        match champ_of (mvar_at l i) with
        | Some c => _ <~ destroy_h B c ;; mret (update_at i VGone l, ONone)
        | None => mret (l, ONone)
        end
    | MApply i o f =>
        match mvar_at l i with
        | VHas c =>
            r <~ catch f (apply_h o c) ;;
            match r with
            | Some c' => mret (l ++ [VHas c'], ONone)
            | None => mret (l ++ [VGone], OThrew)
            end
        | _ => mret (l ++ [VGone], ONone)
        end
    | MMutate i o f =>
        match mvar_at l i with
        | VHas c =>
            r <~ catch f (mutate_h o c) ;;
            match r with
            | Some c' => mret (update_at i (VHas c') l, ONone)
            | None => mret (update_at i (VSpoilt c) l, OThrew)
            end
        | _ => mret (l, ONone)
        end
    | MGet i k f =>
        match mvar_at l i with
        | VHas c =>
            r <~ catch f (get_h B key khash keq c k) ;;
            match r with
            | Some v => mret (l, OFound v)
            | None => mret (l, OThrew)
            end
        | _ => mret (l, ONone)
        end
    | MSize i =>
        match mvar_at l i with
        | VHas c => mret (l, OSize (h_size c))
        | _ => mret (l, ONone)
        end
    end.
  Fixpoint mrun (l : list mvar) (os : list (mop T K V)) : MM (list mvar * list (mobs T)) :=
    match os with
    | [] => mret (l, [])
    | o :: os' =>
        ' (l', x) <~ mstep l o ;;
        ' (l'', xs) <~ mrun l' os' ;;
        mret (l'', x :: xs)
    end.

  (** Memory when the program starts: the static empty node, champ.hpp:140-148, with one
      reference of its own. *)
  Definition start : heap (cbody T) := [Some (mkCell 1 (BInner 0 0 false) [])].
End Prog.
