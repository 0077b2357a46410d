(** The properties of vector and flex_vector (C14-C21, C23, C25-C28, C45).  [built t xs]
    and [vbuilt t xs] (RrbReach.v) relate every value the public interface can produce to
    the sequence its calls describe; [shows t xs] says that the size, the traversal and
    indexing of [t] are those of [xs]; [small] is the range in which drop and + are
    supported (RrbRefuted.v shows what happens outside).  The specifications are the
    functions of RrbSpec.v and of the standard library on lists. *)
From Coq Require Import List NArith ZArith Bool Lia.
From Verif Require Import Common NList Rrb RrbInv RrbShuffle RrbView RrbSpec RrbViewOk
  RrbReach RrbWalk RrbLemmas RrbExec.
Import ListNotations.
Local Open Scope N_scope.

(** The concrete flex_vector of the examples: relaxed, of height 3, with width 4. *)
Definition ex_cmds : list (cmd N) :=
  pushes 40 ++ [CSelf; CDrop 3; CPush 100; CTake 70; CErase 7; CFront 7; CInsert 20 9].
Definition ex_tree : tree N :=
  match exec 2 2 empty ex_cmds with Some t => t | None => empty end.
Example ex_built : built 2 2 ex_tree (to_list ex_tree).
Proof. apply exec_built with ex_cmds; [lia|]. vm_compute. reflexivity. Qed.
Example ex_shape : (is_rel (root ex_tree), lv ex_tree, size ex_tree) = (true, 2%nat, 71).
Proof. vm_compute. reflexivity. Qed.
Example ex_small : small 2 2 ex_tree.
Proof. apply small_b_ok. vm_compute. reflexivity. Qed.
(** The concrete vector: 70 elements, height 3. *)
Definition ex_vec : tree N := match vpushes 2 2 70 with Ok t => t | UB => empty end.
Example ex_vbuilt : vbuilt 2 2 ex_vec (map N.of_nat (seq 0 70)).
Proof. apply vpushes_built. vm_compute. reflexivity. Qed.
Example ex_vec_shape : (lv ex_vec, size ex_vec) = (2%nat, 70).
Proof. vm_compute. reflexivity. Qed.

(** * C14 *)
Theorem C14_vector_history : forall T B BL (t : tree T) xs, 1 <= B ->
  vbuilt B BL t xs ->
  size t = N.of_nat (length xs) /\
  (size t <= 2 ^ (BL + 6 * B) ->
   forall i x, nth_error xs (N.to_nat i) = Some x -> vget B BL t i = Ok x).
Proof. intros T B BL t xs HB H. destruct (vbuilt_shows B BL HB t xs H) as (? & _ & ?). auto. Qed.
Print Assumptions C14_vector_history.
Theorem C14_push_back : forall T B BL (t : tree T) xs x, 1 <= B ->
  vbuilt B BL t xs ->
  exists t', vpush_back B BL t x = Ok t' /\ vshows B BL t' (xs ++ [x]).
Proof. intros; eapply vpush_back_shows; eauto. Qed.
Print Assumptions C14_push_back.
Example C14_case : vget 2 2 ex_vec 69 = Ok 69 /\ size ex_vec <= 2 ^ (2 + 6 * 2).
Proof. split; [vm_compute; reflexivity|]. vm_compute. discriminate. Qed.

(** * C15 *)
Theorem C15_push_back : forall T B BL (t : tree T) xs x, 2 <= B ->
  built B BL t xs ->
  exists t', push_back B BL t x = Ok t' /\ shows B BL t' (xs ++ [x]).
Proof. intros; eapply push_back_shows; eauto. Qed.
Print Assumptions C15_push_back.
Example C15_case : match push_back 2 2 ex_tree 5 with Ok t => get 2 2 t 71 | UB => UB end = Ok 5.
Proof. vm_compute. reflexivity. Qed.

(** * C16 *)
Theorem C16_update : forall T B BL (t : tree T) xs i f, 2 <= B ->
  built B BL t xs -> i < size t ->
  exists t', update B BL t i f = Ok t' /\ shows B BL t' (list_set xs (N.to_nat i) f).
Proof. intros; eapply update_shows; eauto. Qed.
Print Assumptions C16_update.
Theorem C16_set : forall T B BL (t : tree T) xs i x, 2 <= B ->
  built B BL t xs -> i < size t ->
  exists t', assoc B BL t i x = Ok t' /\ shows B BL t' (list_set xs (N.to_nat i) (fun _ => x)).
Proof. intros; eapply assoc_shows; eauto. Qed.
Print Assumptions C16_set.
Theorem C16_vector_update : forall T B BL (t : tree T) xs i f, 1 <= B ->
  vbuilt B BL t xs -> i < size t ->
  exists t', vupdate B BL t i f = Ok t' /\ vshows B BL t' (list_set xs (N.to_nat i) f).
Proof. intros; eapply vupdate_shows; eauto. Qed.
Print Assumptions C16_vector_update.
(** What [list_set] means position by position. *)
Theorem C16_positions : forall A (xs : list A) i f,
  length (list_set xs i f) = length xs /\
  (forall j, j <> i -> nth_error (list_set xs i f) j = nth_error xs j) /\
  nth_error (list_set xs i f) i = option_map f (nth_error xs i).
Proof. exact @list_set_nth. Qed.
Print Assumptions C16_positions.
Example C16_case :
  match update 2 2 ex_tree 30 (fun x => x + 1000) with
  | Ok t => (get 2 2 t 30, get 2 2 t 31, get 2 2 ex_tree 30)
  | UB => (UB, UB, UB)
  end = (Ok 1032, Ok 33, Ok 32).
Proof. vm_compute. reflexivity. Qed.

(** * C17 *)
Theorem C17_take : forall T B BL (t : tree T) xs n, 2 <= B ->
  built B BL t xs ->
  exists t', take B BL t n = Ok t' /\ shows B BL t' (firstn (N.to_nat n) xs).
Proof. intros; eapply take_shows; eauto. Qed.
Print Assumptions C17_take.
Theorem C17_vector_take : forall T B BL (t : tree T) xs n, 1 <= B ->
  vbuilt B BL t xs ->
  exists t', vtake B BL t n = Ok t' /\ vshows B BL t' (firstn (N.to_nat n) xs).
Proof. intros; eapply vtake_shows; eauto. Qed.
Print Assumptions C17_vector_take.
Example C17_case :
  match take 2 2 ex_tree 33 with Ok t => to_list t | UB => [] end = firstn 33 (to_list ex_tree).
Proof. vm_compute. reflexivity. Qed.

(** * C18 *)
Theorem C18_drop : forall T B BL (t : tree T) xs n, 2 <= B ->
  built B BL t xs -> small B BL t ->
  exists t', drop B BL t n = Ok t' /\ shows B BL t' (skipn (N.to_nat n) xs).
Proof. intros; eapply drop_shows; eauto. Qed.
Print Assumptions C18_drop.
Example C18_case :
  match drop 2 2 ex_tree 33 with Ok t => to_list t | UB => [] end = skipn 33 (to_list ex_tree).
Proof. vm_compute. reflexivity. Qed.

(** * C19 *)
Theorem C19_concat : forall T B BL (t u : tree T) xs ys, 2 <= B ->
  built B BL t xs -> built B BL u ys -> small B BL u ->
  exists t', concat B BL t u = Ok t' /\ shows B BL t' (xs ++ ys).
Proof. intros; eapply concat_shows; eauto. Qed.
Print Assumptions C19_concat.
Example C19_case :
  match concat 2 2 ex_tree ex_tree with Ok t => to_list t | UB => [] end
  = to_list ex_tree ++ to_list ex_tree.
Proof. vm_compute. reflexivity. Qed.

(** * C20 *)
Theorem C20_push_front : forall T B BL (t : tree T) xs x, 2 <= B ->
  built B BL t xs -> small B BL t ->
  exists t', push_front B BL t x = Ok t' /\ shows B BL t' (x :: xs).
Proof. intros; eapply push_front_shows; eauto. Qed.
Print Assumptions C20_push_front.
Theorem C20_insert : forall T B BL (t : tree T) xs i x, 2 <= B ->
  built B BL t xs -> small B BL t ->
  exists t', insert B BL t i x = Ok t' /\
    shows B BL t' (firstn (N.to_nat i) xs ++ x :: skipn (N.to_nat i) xs).
Proof. intros; eapply insert_shows; eauto. Qed.
Print Assumptions C20_insert.
Theorem C20_insert_vec : forall T B BL (t u : tree T) xs ys i, 2 <= B ->
  built B BL t xs -> small B BL t -> built B BL u ys -> small B BL u ->
  exists t', insert_vec B BL t i u = Ok t' /\
    shows B BL t' (firstn (N.to_nat i) xs ++ ys ++ skipn (N.to_nat i) xs).
Proof. intros; eapply insert_vec_shows; eauto. Qed.
Print Assumptions C20_insert_vec.
Theorem C20_erase : forall T B BL (t : tree T) xs i, 2 <= B ->
  built B BL t xs -> small B BL t ->
  exists t', erase B BL t i = Ok t' /\
    shows B BL t' (firstn (N.to_nat i) xs ++ skipn (N.to_nat i + 1) xs).
Proof. intros; eapply erase_shows; eauto. Qed.
Print Assumptions C20_erase.
Theorem C20_erase_range : forall T B BL (t : tree T) xs i j, 2 <= B ->
  built B BL t xs -> small B BL t -> i <= j ->
  exists t', erase_range B BL t i j = Ok t' /\
    shows B BL t' (firstn (N.to_nat i) xs ++ skipn (N.to_nat j) xs).
Proof. intros; eapply erase_range_shows; eauto. Qed.
Print Assumptions C20_erase_range.
Example C20_case :
  match erase_range 2 2 ex_tree 5 65 with Ok t => to_list t | UB => [] end
  = firstn 5 (to_list ex_tree) ++ skipn 65 (to_list ex_tree).
Proof. vm_compute. reflexivity. Qed.

(** * C21
    [shuffle] reads and writes its table of counts; every access outside of the used part
    is UB.  [cl] is the level of the nodes being merged: leaves have up to 2^BL elements,
    inner nodes up to 2^B children. *)
Theorem C21_plan : forall B BL (cl : nat) (counts : list N),
  let br := match cl with O => 2 ^ BL | S _ => 2 ^ B end in
  counts <> [] -> Forall (fun c => 1 <= c <= br) counts ->
  exists plan, shuffle B BL cl counts = Ok plan /\
    Forall (fun c => 1 <= c <= br) plan /\
    fold_right N.add 0 plan = fold_right N.add 0 counts /\
    (length plan <= length counts)%nat /\
    N.of_nat (length plan) <= (fold_right N.add 0 counts - 1) / br + 1 + 1.
Proof. exact plan_ok. Qed.
Print Assumptions C21_plan.
(** The whole concatenation, whose model is UB when the plan does not fit the table of
    2^(B+1)+1 counts, when a merged node gets too many children, or when the center has
    more than the three slots of its fixed-size array. *)
Theorem C21_concat_defined : forall T B BL (t u : tree T) xs ys, 2 <= B ->
  built B BL t xs -> built B BL u ys -> small B BL u ->
  concat B BL t u <> UB.
Proof.
  intros T B BL t u xs ys HB H1 H2 Hs. destruct (concat_shows B BL HB t xs u ys H1 H2 Hs) as (w & -> & _).
  discriminate.
Qed.
Print Assumptions C21_concat_defined.
Example C21_case : shuffle 2 2 1 [1; 4; 2; 1; 3; 1] = Ok [4; 4; 3; 1].
Proof. vm_compute. reflexivity. Qed.

(** * C23
    [eqT] is the comparison of elements, [peq] the comparison of node addresses: nodes at
    the same address are the same node. *)
Theorem C23_vector_equality : forall T B BL eqT peq (a b : tree T) xs ys, 1 <= B ->
  (forall x, eqT x x = true) -> (forall m n, peq m n = true -> m = n) ->
  vbuilt B BL a xs -> vbuilt B BL b ys ->
  exists r, vequals B BL eqT peq a b = Ok r /\
    (r = true <-> Forall2 (fun x y => eqT x y = true) xs ys).
Proof. intros; apply vbuilt_equals; auto. Qed.
Print Assumptions C23_vector_equality.
Example C23_case :
  match vupdate 2 2 ex_vec 31 (fun x => x + 1) with
  | Ok t => (vequals 2 2 N.eqb (fun _ _ => false) ex_vec t,
             vequals 2 2 N.eqb (fun _ _ => false) ex_vec ex_vec)
  | UB => (UB, UB)
  end = (Ok false, Ok true).
Proof. vm_compute. reflexivity. Qed.

(** * C25 *)
Theorem C25_chunks : forall T B BL (t : tree T) xs, 2 <= B -> built B BL t xs ->
  exists cs, for_each_chunk B BL t = Ok cs /\ List.concat cs = xs.
Proof. intros T B BL t xs HB H. apply (built_shows B BL HB t xs H). Qed.
Print Assumptions C25_chunks.
Theorem C25_chunks_range : forall T B BL (t : tree T) xs f e, 2 <= B -> built B BL t xs ->
  f <= e -> e <= size t ->
  exists cs, for_each_chunk_i B BL t f e = Ok cs /\
    List.concat cs = list_range xs (N.to_nat f) (N.to_nat e).
Proof. intros; apply chunks_range; auto. Qed.
Print Assumptions C25_chunks_range.
Theorem C25_vector_chunks : forall T B BL (t : tree T) xs, 1 <= B -> vbuilt B BL t xs ->
  exists cs, vfor_each_chunk B BL t = Ok cs /\ List.concat cs = xs.
Proof. intros T B BL t xs HB H. apply (vbuilt_shows B BL HB t xs H). Qed.
Print Assumptions C25_vector_chunks.
Theorem C25_vector_chunks_range : forall T B BL (t : tree T) xs f e, 1 <= B ->
  vbuilt B BL t xs -> f <= e -> e <= size t ->
  exists cs, vfor_each_chunk_i B BL t f e = Ok cs /\
    List.concat cs = list_range xs (N.to_nat f) (N.to_nat e).
Proof. intros; apply vchunks_range; auto. Qed.
Print Assumptions C25_vector_chunks_range.
(** The predicate versions call [fn], with its state, on the same chunks until the first
    false, and return its answer. *)
Theorem C25_predicate : forall T B BL St (fn : St -> list T -> St * bool) (t : tree T) xs s,
  2 <= B -> built B BL t xs ->
  exists cs, for_each_chunk B BL t = Ok cs /\ List.concat cs = xs /\
    for_each_chunk_p B BL fn t s = Ok (run_until fn s cs).
Proof.
  intros T B BL St fn t xs s HB H. destruct (C25_chunks T B BL t xs HB H) as (cs & E & Hc).
  exists cs. split; [exact E|]. split; [exact Hc|]. now apply for_each_chunk_p_run.
Qed.
Print Assumptions C25_predicate.
Theorem C25_predicate_range : forall T B BL St (fn : St -> list T -> St * bool) (t : tree T) xs f e s,
  2 <= B -> built B BL t xs -> f <= e -> e <= size t ->
  exists cs, for_each_chunk_i B BL t f e = Ok cs /\
    List.concat cs = list_range xs (N.to_nat f) (N.to_nat e) /\
    for_each_chunk_p_i B BL fn t f e s = Ok (run_until fn s cs).
Proof.
  intros T B BL St fn t xs f e s HB H H1 H2.
  destruct (C25_chunks_range T B BL t xs f e HB H H1 H2) as (cs & E & Hc).
  exists cs. split; [exact E|]. split; [exact Hc|]. now apply for_each_chunk_p_i_run.
Qed.
Print Assumptions C25_predicate_range.
Theorem C25_vector_predicate : forall T B BL St (fn : St -> list T -> St * bool) (t : tree T) xs s,
  1 <= B -> vbuilt B BL t xs ->
  exists cs, vfor_each_chunk B BL t = Ok cs /\ List.concat cs = xs /\
    vfor_each_chunk_p B BL fn t s = Ok (run_until fn s cs).
Proof.
  intros T B BL St fn t xs s HB H. destruct (C25_vector_chunks T B BL t xs HB H) as (cs & E & Hc).
  exists cs. split; [exact E|]. split; [exact Hc|]. now apply vfor_each_chunk_p_run.
Qed.
Print Assumptions C25_vector_predicate.
Theorem C25_vector_predicate_range :
  forall T B BL St (fn : St -> list T -> St * bool) (t : tree T) xs f e s,
  1 <= B -> vbuilt B BL t xs -> f <= e -> e <= size t ->
  exists cs, vfor_each_chunk_i B BL t f e = Ok cs /\
    List.concat cs = list_range xs (N.to_nat f) (N.to_nat e) /\
    vfor_each_chunk_p_i B BL fn t f e s = Ok (run_until fn s cs).
Proof.
  intros T B BL St fn t xs f e s HB H H1 H2.
  destruct (C25_vector_chunks_range T B BL t xs f e HB H H1 H2) as (cs & E & Hc).
  exists cs. split; [exact E|]. split; [exact Hc|]. now apply vfor_each_chunk_p_i_run.
Qed.
Print Assumptions C25_vector_predicate_range.
Example C25_case :
  match for_each_chunk_i 2 2 ex_tree 3 17 with Ok cs => map (@length N) cs | UB => [] end
  = [2; 3; 1; 4; 4]%nat.
Proof. vm_compute. reflexivity. Qed.

(** * C26 *)
Theorem C26_walk : forall T B BL (t : tree T) xs ops out, 2 <= B -> built B BL t xs ->
  (walk_list xs 0 ops = Some out -> walk B BL t (it_begin t) ops = Ok out) /\
  (walk_list xs (length xs) ops = Some out -> walk B BL t (it_end t) ops = Ok out).
Proof. intros; split; intros; [eapply walk_begin|eapply walk_end]; eauto. Qed.
Print Assumptions C26_walk.
Theorem C26_vector_walk : forall T B BL (t : tree T) xs ops out, 1 <= B -> vbuilt B BL t xs ->
  size t <= 2 ^ (BL + 6 * B) ->
  walk_list xs 0 ops = Some out -> vwalk B BL t (vi_begin t) ops = Ok out.
Proof. intros; eapply vwalk_begin; eauto. Qed.
Print Assumptions C26_vector_walk.
Example C26_case :
  let ops := [Deref; Adv 60; Deref; Dec; Deref; Adv (-55); Deref; Inc; Deref; Adv 66]%Z in
  walk_list (to_list ex_tree) 0 ops = Some [7; 22; 21; 6; 7] /\
  walk 2 2 ex_tree (it_begin ex_tree) ops = Ok [7; 22; 21; 6; 7].
Proof. vm_compute. auto. Qed.

(** * C27
    [None] stands for the thrown std::out_of_range. *)
Theorem C27_at : forall T B BL (t : tree T) xs i, 2 <= B -> built B BL t xs -> (lv t < 6)%nat ->
  get_check B BL t i = Ok (nth_error xs (N.to_nat i)).
Proof. intros; eapply get_check_ok; eauto. Qed.
Print Assumptions C27_at.
Theorem C27_vector_at : forall T B BL (t : tree T) xs i, 1 <= B -> vbuilt B BL t xs ->
  size t <= 2 ^ (BL + 6 * B) ->
  vget_check B BL t i = Ok (nth_error xs (N.to_nat i)).
Proof. intros; eapply vget_check_ok; eauto. Qed.
Print Assumptions C27_vector_at.
Example C27_case : get_check 2 2 ex_tree 70 = Ok (Some 32) /\ get_check 2 2 ex_tree 71 = Ok None.
Proof. vm_compute. auto. Qed.

(** * C28 *)
Theorem C28_flex_max_size : forall B BL, 2 <= B < 64 -> BL < 64 ->
  0 < max_size B BL < 2 ^ 64 /\
  max_size B BL = (2 ^ BL - N.min BL 2) * (2 ^ B - 2) ^ ((64 - BL) / B).
Proof. intros B BL H1 H2. destruct (max_size_exact B BL H1 H2). auto. Qed.
Print Assumptions C28_flex_max_size.
Theorem C28_vector_max_size_partial : forall B BL, 1 <= B < 64 -> BL < 64 ->
  BL + (64 - BL) / B * B <> 64 ->
  0 < vmax_size B BL < 2 ^ 64 /\ vmax_size B BL = 2 ^ (BL + (64 - BL) / B * B).
Proof. exact vmax_size_pos. Qed.
Print Assumptions C28_vector_max_size_partial.
(** For vectors of 16-byte elements with the default B = 5 (hence BL = 4) max_size() is 0. *)
Theorem C28_vector_max_size_refuted :
  exists B BL, 1 <= B /\ BL + B <= 64 /\ vmax_size B BL = 0.
Proof. exists 5, 4. split; [lia|]. split; [lia|]. vm_compute. reflexivity. Qed.
Print Assumptions C28_vector_max_size_refuted.
Example C28_case : max_size 5 5 = 30 ^ 12 /\ vmax_size 5 5 = 2 ^ 60.
Proof. vm_compute. auto. Qed.

(** * C45
    [r] is any traversal whose chunks make up [ys]: by C25 the full and ranged traversals
    of both containers are such. *)
Definition covers {T} (r : res (list (list T))) (ys : list T) : Prop :=
  exists cs, r = Ok cs /\ List.concat cs = ys.
Theorem C45_accumulate : forall T A (r : res (list (list T))) ys (init : A) op, covers r ys ->
  accumulate r init op = Ok (fold_left op ys init).
Proof. intros T A r ys init op (cs & -> & <-). unfold accumulate. cbn [rbind]. now rewrite fold_chunks. Qed.
Print Assumptions C45_accumulate.
Theorem C45_for_each : forall T A (r : res (list (list T))) ys (s : A) fn, covers r ys ->
  for_each r s fn = Ok (fold_left fn ys s).
Proof. intros T A r ys s fn (cs & -> & <-). unfold for_each. cbn [rbind]. now rewrite fold_chunks. Qed.
Print Assumptions C45_for_each.
Theorem C45_copy : forall T (r : res (list (list T))) ys, covers r ys -> copy r = Ok ys.
Proof. intros T r ys (cs & -> & <-). unfold copy. cbn [rbind]. now rewrite copy_chunks. Qed.
Print Assumptions C45_copy.
Theorem C45_all_of : forall T B BL (t : tree T) xs pr, 2 <= B -> built B BL t xs ->
  all_of B BL t pr = Ok (forallb pr xs) /\
  (forall f e, f <= e -> e <= size t ->
   all_of_i B BL t f e pr = Ok (forallb pr (list_range xs (N.to_nat f) (N.to_nat e)))).
Proof.
  intros T B BL t xs pr HB H. split.
  - destruct (C25_predicate T B BL unit (all_of_fn pr) t xs tt HB H) as (cs & _ & <- & E).
    unfold all_of. now rewrite E, all_of_chunks.
  - intros f e H1 H2.
    destruct (C25_predicate_range T B BL unit (all_of_fn pr) t xs f e tt HB H H1 H2) as (cs & _ & <- & E).
    unfold all_of_i. now rewrite E, all_of_chunks.
Qed.
Print Assumptions C45_all_of.
Theorem C45_vector_all_of : forall T B BL (t : tree T) xs pr, 1 <= B -> vbuilt B BL t xs ->
  vall_of B BL t pr = Ok (forallb pr xs) /\
  (forall f e, f <= e -> e <= size t ->
   vall_of_i B BL t f e pr = Ok (forallb pr (list_range xs (N.to_nat f) (N.to_nat e)))).
Proof.
  intros T B BL t xs pr HB H. split.
  - destruct (C25_vector_predicate T B BL unit (all_of_fn pr) t xs tt HB H) as (cs & _ & <- & E).
    unfold vall_of. now rewrite E, all_of_chunks.
  - intros f e H1 H2.
    destruct (C25_vector_predicate_range T B BL unit (all_of_fn pr) t xs f e tt HB H H1 H2) as (cs & _ & <- & E).
    unfold vall_of_i. now rewrite E, all_of_chunks.
Qed.
Print Assumptions C45_vector_all_of.
(** All the traversals C45 applies to. *)
Theorem C45_traversals : forall T B BL (t : tree T) xs f e,
  (2 <= B -> built B BL t xs -> covers (for_each_chunk B BL t) xs) /\
  (2 <= B -> built B BL t xs -> f <= e -> e <= size t ->
   covers (for_each_chunk_i B BL t f e) (list_range xs (N.to_nat f) (N.to_nat e))) /\
  (1 <= B -> vbuilt B BL t xs -> covers (vfor_each_chunk B BL t) xs) /\
  (1 <= B -> vbuilt B BL t xs -> f <= e -> e <= size t ->
   covers (vfor_each_chunk_i B BL t f e) (list_range xs (N.to_nat f) (N.to_nat e))).
Proof.
  intros. split; [|split; [|split]]; intros.
  - now apply C25_chunks.
  - now apply C25_chunks_range.
  - now apply C25_vector_chunks.
  - now apply C25_vector_chunks_range.
Qed.
Print Assumptions C45_traversals.
Example C45_case :
  (accumulate (for_each_chunk_i 2 2 ex_tree 10 60) 0 N.add, all_of_i 2 2 ex_tree 10 60 (fun x => x <? 40))
  = (Ok (fold_left N.add (list_range (to_list ex_tree) 10 60) 0), Ok true).
Proof. vm_compute. reflexivity. Qed.
