(** immer::detail::iterator_facade over the iterators of vector and flex_vector.

    Source: immer/detail/iterator_facade.hpp, immer/detail/rbts/rbtree_iterator.hpp,
    immer/detail/rbts/rrbtree_iterator.hpp.  The moves and dereferences are those of RrbView.
    Simplification: operator-> is the address of what operator* refers to. *)
From Coq Require Import List Arith NArith ZArith Bool.
From Verif Require Import Common Rrb RrbView FacadeSpec.
Import ListNotations.

(** What iterator_core_access (18-55) gets at.  Dereferencing changes the iterator's cache (mutable
    members). *)
Record prims (I T : Type) : Type := mkPrims {
  p_begin : I; p_end : I;
  p_inc : I -> res I; p_dec : I -> res I; p_adv : Z -> I -> res I;
  p_deref : I -> res (T * I);
  p_equal : I -> I -> bool;
  p_dist : I -> I -> res Z }.
Arguments p_begin {I T}. Arguments p_end {I T}. Arguments p_inc {I T}. Arguments p_dec {I T}. Arguments p_adv {I T}.
Arguments p_deref {I T}. Arguments p_equal {I T}. Arguments p_dist {I T}.

(** static_cast<std::ptrdiff_t> of a size_t, and - of a ptrdiff_t, undefined for the least one. *)
Definition to_diff (x : N) : Z :=
  let y := (Z.of_N x mod 2 ^ 64)%Z in if (y <? 2 ^ 63)%Z then y else (y - 2 ^ 64)%Z.
Definition neg_diff (z : Z) : res Z := if (z =? - 2 ^ 63)%Z then UB else Ok (- z)%Z.
(** distance_to of the indices [i] and [j] (the other): rbtree_iterator.hpp:80-84,
    rrbtree_iterator.hpp:80-84. *)
Definition dist_of (i j : N) : res Z := if (i <? j)%N then Ok (to_diff (j - i)) else neg_diff (to_diff (i - j)).

Section Facade.
Context {I T : Type}.
Variable P : prims I T.
(** ++, 116-120; --, 128-133; +=, 142-146; -=, 147-151. *)
Definition f_inc (it : I) : res I := p_inc P it.
Definition f_dec (it : I) : res I := p_dec P it.
Definition f_addto (it : I) (n : Z) : res I := p_adv P n it.
Definition f_subfrom (it : I) (n : Z) : res I := m <- neg_diff n ;; p_adv P m it.
(** + and -: 153-169. *)
Definition f_plus (it : I) (n : Z) : res I := f_addto it n.
Definition f_plusleft (n : Z) (it : I) : res I := f_plus it n.
Definition f_minus (it : I) (n : Z) : res I := f_subfrom it n.
(** [], 101-105: the element of a temporary. *)
Definition f_index (it : I) (n : Z) : res T := j <- f_plus it n ;; r <- p_deref P j ;; Ok (fst r).
(** The difference, 170-174. *)
Definition f_diff (a b : I) : res Z := p_dist P b a.
(** ==, != 107-114; < <= > >= 176-195. *)
Definition f_cmp (c : cmp) (a b : I) : res bool :=
  match c with
  | Ceq => Ok (p_equal P a b)
  | Cne => Ok (negb (p_equal P a b))
  | Clt => d <- p_dist P a b ;; Ok (0 <? d)%Z
  | Cle => d <- p_dist P a b ;; Ok (0 <=? d)%Z
  | Cgt => d <- p_dist P a b ;; Ok (d <? 0)%Z
  | Cge => d <- p_dist P a b ;; Ok (d <=? 0)%Z
  end.
(** One statement; post-increment (121-126) and post-decrement (134-140) return a copy from before. *)
Definition fstep (v : nat -> I) (o : fop) : res ((nat -> I) * list (shown T)) :=
  match o with
  | FBegin d => Ok (vset v d (p_begin P), [])
  | FEnd d => Ok (vset v d (p_end P), [])
  | FPreInc d s => j <- f_inc (v s) ;; Ok (vset (vset v s j) d j, [])
  | FPostInc d s => j <- f_inc (v s) ;; Ok (vset (vset v s j) d (v s), [])
  | FPreDec d s => j <- f_dec (v s) ;; Ok (vset (vset v s j) d j, [])
  | FPostDec d s => j <- f_dec (v s) ;; Ok (vset (vset v s j) d (v s), [])
  | FAddTo d s n => j <- f_addto (v s) n ;; Ok (vset (vset v s j) d j, [])
  | FSubFrom d s n => j <- f_subfrom (v s) n ;; Ok (vset (vset v s j) d j, [])
  | FPlus d s n => j <- f_plus (v s) n ;; Ok (vset v d j, [])
  | FPlusLeft d n s => j <- f_plusleft n (v s) ;; Ok (vset v d j, [])
  | FMinus d s n => j <- f_minus (v s) n ;; Ok (vset v d j, [])
  | FDeref s => r <- p_deref P (v s) ;; Ok (vset v s (snd r), [SVal (fst r)])
  | FIndex s n => x <- f_index (v s) n ;; Ok (v, [SVal x])
  | FDiff a b => z <- f_diff (v a) (v b) ;; Ok (v, [SInt z])
  | FCmp c a b => r <- f_cmp c (v a) (v b) ;; Ok (v, [SBool r])
  end.
Fixpoint fruns (v : nat -> I) (os : list fop) : res (list (shown T)) :=
  match os with
  | [] => Ok []
  | o :: os' => r <- fstep v o ;; zs <- fruns (fst r) os' ;; Ok (snd r ++ zs)
  end.
Definition frun (os : list fop) : res (list (shown T)) := fruns (fun _ => p_begin P) os.
End Facade.

(** rrbtree_iterator of [t]; equal: 78. *)
Definition flex_prims {T} (B BL : N) (t : tree T) : prims (@iter T) T :=
  mkPrims _ _ (it_begin t) (it_end t) (it_inc t) it_dec (it_advance t) (it_deref B BL t)
    (fun a b => N.eqb (it_i a) (it_i b)) (fun a b => dist_of (it_i a) (it_i b)).
(** rbtree_iterator of [t]: its end 41-46, equal 78. *)
Definition vec_prims {T} (B BL : N) (t : tree T) : prims (@viter T) T :=
  mkPrims _ _ (vi_begin t) (mkViter (size t) None) (vi_inc t) vi_dec (vi_advance t) (vi_deref B BL t)
    (fun a b => N.eqb (vi_i a) (vi_i b)) (fun a b => dist_of (vi_i a) (vi_i b)).
