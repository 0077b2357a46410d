(** What a vector in the memory of GcConcat contains, written without the functions of the model:
    the tree is read from its root to the leaves, by the number of elements it holds. *)
From Coq Require Import List NArith.
From Verif Require Import Common NList GcConcat.
Import ListNotations.
Local Open Scope N_scope.

Section GcSpec.
  Variables B BL : N.
  Context {T : Type}.
  (** The first [n] entries, all of which have been written. *)
  Fixpoint firsts {A} (n : nat) (l : list (option A)) : option (list A) :=
    match n, l with
    | O, _ => Some []
    | S n, Some x :: l => match firsts n l with Some xs => Some (x :: xs) | None => None end
    | S _, _ => None
    end.
  Definition both {A} (x y : option (list A)) : option (list A) :=
    match x, y with Some a, Some b => Some (a ++ b) | _, _ => None end.
  (** Children of [w] elements each, the last one with what is left of [s]. *)
  Fixpoint even_kids {A} (rd : nat -> N -> option (list A)) (w s : N) (cs : list nat) : option (list A) :=
    match cs with
    | [] => Some []
    | c :: cs => both (rd c (N.min w s)) (even_kids rd w (s - w) cs)
    end.
  (** Children whose running totals are [zs]. *)
  Fixpoint sized_kids {A} (rd : nat -> N -> option (list A)) (p : N) (zs : list N) (cs : list nat) : option (list A) :=
    match zs, cs with
    | z :: zs, c :: cs => both (rd c (z - p)) (sized_kids rd z zs cs)
    | [], [] => Some []
    | _, _ => None
    end.
  (** The [s] elements of the tree of level [v] at [a]. *)
  Fixpoint contents (h : gheap T) (v : nat) (a : nat) (s : N) : option (list T) :=
    match v, nth_error h a with
    | O, Some (mkG _ (GLeaf xs)) => firsts (N.to_nat s) xs
    | S l, Some (mkG _ (GInner None cs)) =>
        let w := 2 ^ (BL + B * N.of_nat l) in
        match firsts (N.to_nat ((s + w - 1) / w)) cs with
        | Some cs => even_kids (contents h l) w s cs
        | None => None
        end
    | S l, Some (mkG _ (GInner (Some r) cs)) =>
        match nth_error h r with
        | Some (mkG _ (GTable (Some n) zs)) =>
            match firsts (N.to_nat n) zs, firsts (N.to_nat n) cs with
            | Some zs, Some cs => if last zs 0 =? s then sized_kids (contents h l) 0 zs cs else None
            | _, _ => None
            end
        | _ => None
        end
    | _, _ => None
    end.
  (** The number of elements in the tree, the others being in the tail: the last running total of
      the root, or, for a root without table, what fills leaves of [2 ^ BL] elements and leaves at
      least one for the tail. *)
  Definition in_tree (h : gheap T) (x : gtree) : option N :=
    match nth_error h (gt_root x) with
    | Some (mkG _ (GInner None _)) => Some (2 ^ BL * ((gt_size x - 1) / 2 ^ BL))
    | Some (mkG _ (GInner (Some r) _)) =>
        match nth_error h r with
        | Some (mkG _ (GTable (Some n) zs)) =>
            match firsts (N.to_nat n) zs with Some zs => Some (last zs 0) | None => None end
        | _ => None
        end
    | _ => None
    end.
  (** The elements of a vector, if all that is read has been written. *)
  Definition reads (h : gheap T) (x : gtree) : option (list T) :=
    match in_tree h x with
    | Some n => both (contents h (S (gt_lv x)) (gt_root x) n) (contents h 0 (gt_tail x) (gt_size x - n))
    | None => None
    end.
End GcSpec.
