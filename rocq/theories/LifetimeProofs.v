(** Proofs about the functions that fill new nodes with elements. *)
From Coq Require Import List Arith Bool Lia.
From Verif Require Import Common AtomProofs RcHeap RcProofs RcExn RcExnProofs Lifetime LifetimeSpec.
Import ListNotations.
Set Default Goal Selector "!".

Notation lheap := (heap (list bool)).
Definition put (a : nat) (s : list bool) (h : lheap) : lheap := update_at a (Some (mkCell 1 s [])) h.
Definition part (k n : nat) : list bool := repeat true k ++ repeat false (n - k).

Lemma nth_repeat_lt {A} (x : A) n i : i < n -> nth_error (repeat x n) i = Some x.
Proof. revert i. induction n; intros [|i] H; cbn; try lia; auto. apply IHn. lia. Qed.
Lemma nth_part k n i : k <= n -> nth_error (part k n) i =
  if i <? k then Some true else if i <? n then Some false else None.
Proof.
  intros H. unfold part. destruct (Nat.ltb_spec i k).
  - rewrite nth_error_app1 by (rewrite repeat_length; lia). apply nth_repeat_lt; lia.
  - rewrite nth_error_app2; rewrite repeat_length; [|lia]. destruct (Nat.ltb_spec i n).
    + apply nth_repeat_lt; lia.
    + apply nth_error_None. rewrite repeat_length. lia.
Qed.
Lemma len_part k n : k <= n -> length (part k n) = n.
Proof. intros. unfold part. rewrite app_length, !repeat_length. lia. Qed.
Lemma nth_ext' {A} : forall (l m : list A), (forall i, nth_error l i = nth_error m i) -> l = m.
Proof.
  induction l; intros [|y m] H; auto.
  - now specialize (H 0).
  - now specialize (H 0).
  - pose proof (H 0) as H0. cbn in H0. injection H0 as ->. f_equal. apply IHl. intros i. exact (H (S i)).
Qed.
Lemma upd_part k n : k < n -> update_at k true (part k n) = part (S k) n.
Proof.
  intros H. apply nth_ext'. intros i. destruct (Nat.eq_dec i k) as [->|Hi].
  - rewrite nth_upd_same by (rewrite len_part; lia). rewrite nth_part by lia.
    destruct (Nat.ltb_spec k (S k)); auto; lia.
  - rewrite nth_upd, !nth_part by lia.
    destruct (Nat.ltb_spec i k), (Nat.ltb_spec i (S k)); auto; lia.
Qed.
Fixpoint clear (lo m : nat) (s : list bool) : list bool :=
  match m with O => s | S m' => clear (S lo) m' (update_at lo false s) end.
Lemma len_clear m : forall lo s, length (clear lo m s) = length s.
Proof. induction m; intros; cbn; auto. rewrite IHm. apply length_upd. Qed.
Lemma nth_clear m : forall lo s i, lo + m <= length s -> nth_error (clear lo m s) i =
  if (lo <=? i) && (i <? lo + m) then Some false else nth_error s i.
Proof.
  induction m; intros lo s i H; cbn [clear].
  - destruct (Nat.leb_spec lo i), (Nat.ltb_spec i (lo + 0)); auto; lia.
  - rewrite IHm by (rewrite length_upd; lia).
    destruct (Nat.leb_spec (S lo) i), (Nat.ltb_spec i (S lo + m)), (Nat.leb_spec lo i),
      (Nat.ltb_spec i (lo + S m)); cbn [andb]; auto; try lia;
      try (rewrite nth_upd by lia; reflexivity).
    assert (i = lo) as -> by lia. apply nth_upd_same. lia.
Qed.
Lemma clear_part lo m n : lo + m <= n -> clear lo m (part (lo + m) n) = part lo n.
Proof.
  intros H. apply nth_ext'. intros i. rewrite nth_clear by (rewrite len_part; lia).
  rewrite !nth_part by lia.
  destruct (Nat.leb_spec lo i), (Nat.ltb_spec i (lo + m)), (Nat.ltb_spec i lo), (Nat.ltb_spec i n);
    cbn [andb]; auto; lia.
Qed.

Lemma put_put a s s' h : put a s (put a s' h) = put a s h.
Proof. apply upd_upd. Qed.
Lemma put_at a s h : a < length h -> cell_at (put a s h) a (mkCell 1 s []).
Proof. apply nth_upd_same. Qed.
Lemma wp_slots a s h (Q : _ -> lheap -> Prop) : a < length h -> Q s (put a s h) -> wp (slots a) (put a s h) Q.
Proof.
  intros H HQ. apply wp_bind. eapply wp_load; [apply put_at; auto|]. apply wp_ret. exact HQ.
Qed.
Lemma wp_set_slots a s s' h (Q : _ -> lheap -> Prop) : a < length h -> Q tt (put a s' h) -> wp (set_slots a s') (put a s h) Q.
Proof.
  intros H HQ. apply wp_bind. eapply wp_load; [apply put_at; auto|]. cbn [c_rc c_kids].
  unfold wp, store. pose proof (put_at a s h H) as E. unfold cell_at in E. rewrite E.
  change (Q tt (put a s' (put a s h))). now rewrite put_put.
Qed.
Lemma wp_destroy_at a i s h (Q : _ -> lheap -> Prop) : a < length h -> nth_error s i = Some true ->
  Q tt (put a (update_at i false s) h) -> wp (destroy_at a i) (put a s h) Q.
Proof.
  intros H E HQ. apply wp_bind. apply wp_slots; auto. rewrite E. apply wp_set_slots; auto.
Qed.
Lemma wp_destroy_n a m : forall i s h (Q : unit -> lheap -> Prop), a < length h ->
  (forall j, i <= j < i + m -> nth_error s j = Some true) ->
  Q tt (put a (clear i m s) h) -> wp (destroy_n a i m) (put a s h) Q.
Proof.
  induction m; intros i s h Q H E HQ; cbn.
  - now apply wp_ret.
  - apply wp_bind. apply wp_destroy_at; auto; [apply E; lia|].
    apply IHm; auto. intros j Hj. rewrite nth_upd by lia. apply E. lia.
Qed.
Lemma wp_destroy a lo m n h (Q : _ -> lheap -> Prop) : a < length h -> lo + m <= n ->
  Q tt (put a (part lo n) h) -> wp (destroy_n a lo m) (put a (part (lo + m) n) h) Q.
Proof.
  intros H Hm HQ. apply wp_destroy_n; auto.
  - intros j Hj. rewrite nth_part by lia. destruct (Nat.ltb_spec j (lo + m)); auto; lia.
  - now rewrite clear_part.
Qed.
Lemma wp_destroy1 a lo n h (Q : _ -> lheap -> Prop) : a < length h -> lo < n ->
  Q tt (put a (part lo n) h) -> wp (destroy_at a lo) (put a (part (S lo) n) h) Q.
Proof.
  intros H Hn HQ. apply wp_destroy_at; auto.
  - rewrite nth_part by lia. destruct (Nat.ltb_spec lo (S lo)); auto; lia.
  - replace (update_at lo false (part (S lo) n)) with (part lo n); auto.
    pose proof (clear_part lo 1 n ltac:(lia)) as E. cbn [clear] in E. now rewrite Nat.add_1_r in E.
Qed.
Lemma xwp_construct t a k n h (Q : _ -> lheap -> Prop) (E : lheap -> Prop) : a < length h -> k < n ->
  Q tt (put a (part (S k) n) h) -> E (put a (part k n) h) ->
  xwp t (construct a k) (put a (part k n) h) Q E.
Proof.
  intros H Hk HQ HE. apply xwp_bind. apply xwp_throw; auto. apply xwp_m. apply wp_bind.
  apply wp_slots; auto. rewrite nth_part by lia.
  destruct (Nat.ltb_spec k k); [lia|]. destruct (Nat.ltb_spec k n); [|lia].
  apply wp_set_slots; auto. now rewrite upd_part.
Qed.
Definition source (h : lheap) (src j m : nat) : Prop :=
  exists c, cell_at h src c /\ forall i, j <= i < j + m -> nth_error (c_body c) i = Some true.
Lemma wp_alive a src j m s h (Q : _ -> lheap -> Prop) : src <> a -> source h src j (S m) ->
  Q tt (put a s h) -> wp (alive src j) (put a s h) Q.
Proof.
  intros N (c & C & Hs) HQ. apply wp_bind. apply wp_bind. eapply wp_load.
  - unfold cell_at, put. rewrite nth_upd by auto. exact C.
  - apply wp_ret. rewrite (Hs j) by lia. now apply wp_ret.
Qed.
Lemma xwp_uninit_from t src a out n h : src <> a -> a < length h ->
  forall m j k (Q : unit -> lheap -> Prop) (E : lheap -> Prop), source h src j m -> out + k + m <= n ->
  Q tt (put a (part (out + k + m) n) h) -> E (put a (part out n) h) ->
  xwp t (uninitialized_from src j a out (out + k) m) (put a (part (out + k) n) h) Q E.
Proof.
  intros N H. induction m; intros j k Q E S Hm HQ HE; cbn [uninitialized_from].
  - apply xwp_ret. now rewrite Nat.add_0_r in HQ.
  - apply xwp_bind. apply xwp_m. eapply wp_alive; eauto.
    apply xwp_bind. apply xwp_try. apply xwp_construct; auto; try lia.
    + replace (Datatypes.S (out + k)) with (out + Datatypes.S k) by lia. apply IHm; auto.
      * destruct S as (c & C & Hs). exists c. split; auto. intros i Hi. apply Hs. lia.
      * lia.
      * now replace (out + Datatypes.S k + m) with (out + k + Datatypes.S m) by lia.
    + replace (out + k - out) with k by lia. apply wp_destroy; auto. lia.
Qed.
Lemma xwp_uninit t src a j out m n h (Q : _ -> lheap -> Prop) (E : lheap -> Prop) : src <> a -> a < length h -> source h src j m -> out + m <= n ->
  Q tt (put a (part (out + m) n) h) -> E (put a (part out n) h) ->
  xwp t (uninitialized src j a out m) (put a (part out n) h) Q E.
Proof.
  intros. unfold uninitialized. pose proof (xwp_uninit_from t src a out n h H H0 m j 0 Q E H1) as P.
  rewrite !Nat.add_0_r in P. apply P; auto.
Qed.

Lemma put_new s x (h : lheap) : put (length h) s (h ++ [x]) = h ++ [Some (mkCell 1 s [])].
Proof.
  apply nth_ext'. intros i. destruct (Nat.eq_dec i (length h)) as [->|N].
  - unfold put. rewrite nth_upd_same by (rewrite app_length; cbn; lia).
    rewrite nth_error_app2, Nat.sub_diag by lia. reflexivity.
  - unfold put. rewrite nth_upd by auto. destruct (Nat.lt_ge_cases i (length h)).
    + now rewrite !nth_error_app1 by auto.
    + rewrite !nth_error_app2 by auto. destruct (i - length h) as [|[|?]] eqn:D; auto; lia.
Qed.
Lemma upd_new y x (h : lheap) : update_at (length h) y (h ++ [x]) = h ++ [y].
Proof.
  apply nth_ext'. intros i. destruct (Nat.eq_dec i (length h)) as [->|N].
  - rewrite nth_upd_same by (rewrite app_length; cbn; lia).
    rewrite nth_error_app2, Nat.sub_diag by lia. reflexivity.
  - rewrite nth_upd by auto. destruct (Nat.lt_ge_cases i (length h)).
    + now rewrite !nth_error_app1 by auto.
    + rewrite !nth_error_app2 by auto. destruct (i - length h) as [|[|?]] eqn:D; auto; lia.
Qed.
Lemma xwp_allocate t n h (Q : _ -> lheap -> Prop) (E : lheap -> Prop) : Q (length h) (put (length h) (part 0 n) (h ++ [None])) -> E h ->
  xwp t (allocate n) h Q E.
Proof.
  intros HQ HE. apply xwp_bind. apply xwp_throw; auto. apply xwp_m. unfold wp, new.
  rewrite put_new in HQ. unfold part in HQ. cbn [repeat app] in HQ. now rewrite Nat.sub_0_r in HQ.
Qed.
Lemma none_alive n : existsb (fun b => b) (part 0 n) = false.
Proof. unfold part. rewrite Nat.sub_0_r. cbn [repeat app]. now induction n. Qed.
Lemma wp_deallocate a n h (Q : _ -> lheap -> Prop) : a < length h ->
  Q tt (update_at a None h) -> wp (deallocate a) (put a (part 0 n) h) Q.
Proof.
  intros H HQ. apply wp_bind. apply wp_slots; auto. rewrite none_alive.
  unfold wp, free. pose proof (put_at a (part 0 n) h H) as E. unfold cell_at in E. rewrite E.
  unfold put. now rewrite upd_upd.
Qed.
Lemma source_app h l src j m : source h src j m -> source (h ++ l) src j m.
Proof.
  intros (c & C & Hs). exists c. split; auto. unfold cell_at in *.
  rewrite nth_error_app1; auto. eapply nth_lt; eauto.
Qed.
Lemma source_lt h src j m : source h src j m -> src < length h.
Proof. intros (c & C & _). eapply nth_lt; eauto. Qed.
Lemma source_of h src n j m : has_elements h src n -> j + m <= n -> source h src j m.
Proof.
  intros (r & E) H. eexists. split; [exact E|]. cbn [c_body]. intros i Hi.
  rewrite nth_error_app1 by (rewrite repeat_length; lia). apply nth_repeat_lt. lia.
Qed.
Lemma part_block k n : k <= n -> Some (mkCell 1 (part k n) []) = block k (n - k).
Proof. reflexivity. Qed.
Lemma all_of {A} (m : X (list bool) A) h Q :
  xwp true m h Q (fun h' => exists k, h' = h ++ repeat None k) -> all_or_nothing m h Q.
Proof.
  intros H f. specialize (H f). destruct (m f h) as [[[[a|] f'] h']|].
  - apply H. discriminate.
  - apply H. discriminate.
  - apply H. discriminate.
Qed.

(** *** One block *)
Ltac len := rewrite ?app_length; cbn [length]; lia.
Ltac undone1 := exists 1; rewrite upd_new; reflexivity.
Ltac undone0 h := exists 0; symmetry; apply app_nil_r.
Ltac src1 := first [ eassumption | apply source_app; eapply source_of; [eassumption|lia] ].
Ltac srcne := match goal with H : has_elements ?h ?s _ |- _ <> length ?h =>
                pose proof (source_lt h s 0 0 (source_of h s _ 0 0 H ltac:(lia))); lia end.
Ltac go :=
  repeat first
    [ apply xwp_construct; [len|lia| |]
    | apply xwp_uninit; [srcne|len|src1|lia| |]
    | apply wp_destroy1; [len|lia|]
    | apply wp_deallocate; [len|]
    | apply xwp_try | apply xwp_bind ].

Theorem make_leaf_ok alloc h : 1 <= alloc ->
  all_or_nothing (make_leaf alloc) h (makes_block h 1 (alloc - 1)).
Proof.
  intros H. apply all_of. apply xwp_bind. apply xwp_allocate; [|undone0 h]. go.
  - apply xwp_ret. split; auto. rewrite put_new. reflexivity.
  - undone1.
Qed.
Theorem make_collision_ok h : all_or_nothing make_collision h (makes_block h 2 0).
Proof.
  apply all_of. apply xwp_bind. apply xwp_allocate; [|undone0 h]. go.
  - apply xwp_ret. split; auto. rewrite put_new. reflexivity.
  - undone1.
  - undone1.
Qed.
Theorem ensure_mutable_values_ok src nv h : has_elements h src nv ->
  all_or_nothing (ensure_mutable_values src nv) h (makes_block h nv 0).
Proof.
  intros S. apply all_of. apply xwp_bind. apply xwp_allocate; [|undone0 h]. go.
  - apply xwp_ret. split; auto. rewrite put_new. unfold part, block. cbn [Nat.add]. now rewrite Nat.sub_diag.
  - undone1.
Qed.
Theorem copy_collision_insert_ok src n h : has_elements h src n ->
  all_or_nothing (copy_collision_insert src n) h (makes_block h (n + 1) 0).
Proof.
  intros S. apply all_of. apply xwp_bind. apply xwp_allocate; [|undone0 h]. go.
  - apply xwp_ret. split; auto. rewrite put_new. rewrite part_block by lia. f_equal. f_equal.
    f_equal; lia.
  - undone1.
  - undone1.
Qed.
Lemma xwp_copy_collision_remove t src n v h (Q : _ -> lheap -> Prop) (E : lheap -> Prop) : has_elements h src n -> v < n ->
  Q (length h) (h ++ [block (n - 1) 0]) -> E h -> E (h ++ [None]) ->
  xwp t (copy_collision_remove src n v) h Q E.
Proof.
  intros S Hv HQ HE HE'. apply xwp_bind. apply xwp_allocate; auto. go.
  - apply xwp_ret. rewrite put_new. rewrite part_block by lia.
    replace (0 + v + (n - v - 1)) with (n - 1) by lia. now rewrite Nat.sub_diag.
  - apply wp_destroy; [len|lia|]. go. now rewrite upd_new.
  - now rewrite upd_new.
Qed.
Theorem copy_collision_remove_ok src n v h : has_elements h src n -> v < n ->
  all_or_nothing (copy_collision_remove src n v) h (makes_block h (n - 1) 0).
Proof.
  intros S Hv. apply all_of. apply xwp_copy_collision_remove; auto.
  - split; auto.
  - undone0 h.
  - now exists 1.
Qed.
Lemma xwp_copy_leaf t alloc src idx n N h (Q : _ -> lheap -> Prop) (E : lheap -> Prop) :
  has_elements h src N -> idx + n <= N -> n <= alloc ->
  Q (length h) (put (length h) (part n alloc) (h ++ [None])) -> E h -> E (h ++ [None]) ->
  xwp t (copy_leaf alloc src idx n) h Q E.
Proof.
  intros S Hn Ha HQ HE HE'. apply xwp_bind. apply xwp_allocate; auto. go.
  - apply xwp_ret. exact HQ.
  - now rewrite upd_new.
Qed.
Theorem copy_leaf_ok alloc src idx n N h : has_elements h src N -> idx + n <= N -> n <= alloc ->
  all_or_nothing (copy_leaf alloc src idx n) h (makes_block h n (alloc - n)).
Proof.
  intros S Hn Ha. apply all_of. eapply xwp_copy_leaf; eauto.
  - split; auto. rewrite put_new. reflexivity.
  - undone0 h.
  - now exists 1.
Qed.
Theorem copy_leaf_2_ok alloc src1 n1 src2 n2 N1 N2 h : has_elements h src1 N1 -> has_elements h src2 N2 ->
  n1 <= N1 -> n2 <= N2 -> n1 + n2 <= alloc ->
  all_or_nothing (copy_leaf_2 alloc src1 n1 src2 n2) h (makes_block h (n1 + n2) (alloc - (n1 + n2))).
Proof.
  intros S1 S2 H1 H2 Ha. apply all_of. apply xwp_bind. apply xwp_allocate; [|undone0 h].
  apply xwp_bind. apply xwp_try. apply xwp_uninit; [srcne|len|src1|lia| |].
  - apply xwp_bind. apply xwp_try. apply xwp_uninit; [srcne|len|src1|lia| |].
    + apply xwp_ret. split; auto. rewrite put_new. reflexivity.
    + apply wp_bind. apply wp_destroy; [len|lia|]. apply wp_deallocate; [len|]. undone1.
  - apply wp_deallocate; [len|]. undone1.
Qed.
Theorem copy_leaf_emplace_ok src n N h : has_elements h src N -> n <= N ->
  all_or_nothing (copy_leaf_emplace src n) h (makes_block h (n + 1) 0).
Proof.
  intros S Hn. apply all_of. apply xwp_bind. eapply xwp_copy_leaf; eauto; try lia.
  - go.
    + apply xwp_ret. split; auto. rewrite put_new, part_block by lia. f_equal. f_equal. f_equal; lia.
    + apply wp_bind. change n with (0 + n) at 2. apply wp_destroy; [len|lia|]. apply wp_deallocate; [len|]. undone1.
  - undone0 h.
  - now exists 1.
Qed.

(** *** The source node is given up *)
Lemma wp_delete_elements src n h l (Q : _ -> lheap -> Prop) : has_elements h src n ->
  Q tt (update_at src None h ++ l) -> wp (delete_elements src n) (h ++ l) Q.
Proof.
  intros (r & E) HQ. pose proof (nth_lt _ _ _ E) as L.
  assert (Hp : put src (part n (n + r)) (h ++ l) = h ++ l).
  { apply upd_same. rewrite nth_error_app1 by auto. rewrite E. unfold part.
    now replace (n + r - n) with r by lia. }
  rewrite <- Hp. unfold delete_elements. apply wp_bind.
  change n with (0 + n) at 2. apply wp_destroy; [len|lia|]. apply wp_deallocate; [len|].
  now rewrite upd_app by auto.
Qed.
(** The source is freed, a new block is there. *)
Lemma xwp_weak {A} t (m : X (list bool) A) h (Q Q' : A -> lheap -> Prop) (E : lheap -> Prop) : xwp t m h Q E ->
  (forall a h', Q a h' -> Q' a h') -> xwp t m h Q' E.
Proof. intros. eapply xwp_mono; eauto. Qed.
Lemma of_all {A} (m : X (list bool) A) h Q : all_or_nothing m h Q ->
  xwp true m h Q (fun h' => exists k, h' = h ++ repeat None k).
Proof.
  intros H f Hf. specialize (H f). destruct (m f h) as [[[[a|] f'] h']|]; auto. split; auto. discriminate.
Qed.
Theorem move_collision_insert_ok src n h : has_elements h src n ->
  all_or_nothing (move_collision_insert src n) h
    (fun a h' => a = length h /\ h' = update_at src None h ++ [block (n + 1) 0]).
Proof.
  intros S. apply all_of. apply xwp_bind. eapply xwp_weak; [apply of_all, copy_collision_insert_ok; auto|].
  intros a h' [-> ->]. cbv beta. apply xwp_bind. apply xwp_m. apply wp_delete_elements; auto.
  apply xwp_ret. auto.
Qed.
Theorem move_collision_remove_ok src n v h : has_elements h src n -> v < n ->
  all_or_nothing (move_collision_remove src n v) h
    (fun a h' => a = length h /\ h' = update_at src None h ++ [block (n - 1) 0]).
Proof.
  intros S Hv. apply all_of. apply xwp_bind. eapply xwp_weak; [apply of_all, copy_collision_remove_ok; eauto|].
  intros a h' [-> ->]. cbv beta. apply xwp_bind. apply xwp_m. apply wp_delete_elements; auto.
  apply xwp_ret. auto.
Qed.

(** *** Inner nodes *)
Definition node1 (h : lheap) : lheap := h ++ [block 0 0].
Lemma len_node1 h : length (node1 h) = S (length h).
Proof. unfold node1. len. Qed.
Lemma xwp_make_inner t nv h (Q : _ -> lheap -> Prop) (E : lheap -> Prop) :
  (nv = 0 -> Q (length h, None) (node1 h)) ->
  (1 <= nv -> Q (length h, Some (length (node1 h))) (put (length (node1 h)) (part 0 nv) (node1 h ++ [None]))) ->
  E h -> E (h ++ [None]) -> xwp t (make_inner_nv nv) h Q E.
Proof.
  intros Q0 Q1 HE HE'. apply xwp_bind. apply xwp_allocate; auto. rewrite put_new.
  destruct (Nat.eqb_spec nv 0).
  - apply xwp_ret. auto.
  - apply xwp_bind. apply xwp_try. apply xwp_allocate.
    + apply xwp_ret. apply Q1. lia.
    + change [Some (mkCell 1 (part 0 0) [])] with [Some (mkCell 1 (part 0 0) ([] : list nat))].
      rewrite <- (put_new (part 0 0) None h). apply wp_deallocate; [len|]. now rewrite upd_new.
Qed.
Lemma wp_deallocate_inner nv h (Q : _ -> lheap -> Prop) : Q tt (h ++ repeat None 2) ->
  wp (deallocate_inner (length h, Some (length (node1 h)))) (put (length (node1 h)) (part 0 nv) (node1 h ++ [None])) Q.
Proof.
  intros HQ. unfold deallocate_inner. cbn [fst snd]. apply wp_bind. apply wp_deallocate; [len|].
  rewrite upd_new. unfold node1 at 1.
  replace ((h ++ [block 0 0]) ++ [None]) with (put (length h) (part 0 0) ((h ++ [block 0 0]) ++ [None])).
  - apply wp_deallocate; [len|]. rewrite upd_app by len. rewrite upd_new. now rewrite <- app_assoc.
  - apply upd_same. rewrite nth_error_app1 by len. rewrite nth_error_app2 by lia. now rewrite Nat.sub_diag.
Qed.
Lemma put_node1 h s : put (length (node1 h)) s (node1 h ++ [None]) = h ++ [block 0 0; Some (mkCell 1 s [])].
Proof. rewrite put_new. unfold node1. now rewrite <- app_assoc. Qed.
Ltac undone2 := exists 2; reflexivity.
Ltac src2 := first [ eassumption | apply source_app; apply source_app; eapply source_of; [eassumption|lia] ].
Ltac srcne2 := match goal with H : has_elements ?h ?s _ |- _ <> length (node1 ?h) =>
                pose proof (source_lt h s 0 0 (source_of h s _ 0 0 H ltac:(lia))); rewrite len_node1; lia end.
Ltac go2 :=
  repeat first
    [ apply xwp_construct; [len|lia| |]
    | apply xwp_uninit; [srcne2|len|src2|lia| |]
    | apply wp_destroy1; [len|lia|]
    | apply wp_deallocate_inner
    | apply xwp_try | apply xwp_bind ].
Ltac inner := split; [reflexivity|]; cbn [snd]; rewrite put_node1; split; [now rewrite len_node1|].

Theorem make_inner_1_ok h : all_or_nothing make_inner_1 h (makes_inner h 1).
Proof.
  apply all_of. apply xwp_bind. apply xwp_make_inner; [discriminate| |undone0 h|now exists 1]. intros _.
  apply xwp_bind. unfold values. cbn [snd]. apply xwp_ret. go2; [|undone2].
  apply xwp_ret. inner. reflexivity.
Qed.
Theorem make_inner_2_ok h : all_or_nothing make_inner_2 h (makes_inner h 2).
Proof.
  apply all_of. apply xwp_bind. apply xwp_make_inner; [discriminate| |undone0 h|now exists 1]. intros _.
  apply xwp_bind. unfold values. cbn [snd]. apply xwp_ret. go2; try undone2.
  apply xwp_ret. inner. reflexivity.
Qed.
Lemma makes_inner_put h k nv : 1 <= nv -> k = nv ->
  makes_inner h nv (length h, Some (length (node1 h))) (put (length (node1 h)) (part k nv) (node1 h ++ [None])).
Proof.
  intros H ->. destruct nv; [lia|]. inner. unfold part, block. now rewrite Nat.sub_diag.
Qed.
Theorem copy_inner_replace_value_ok src nv h : has_elements h src nv -> 1 <= nv ->
  all_or_nothing (copy_inner_replace_value src nv) h (makes_inner h nv).
Proof.
  intros S H. apply all_of. apply xwp_bind. apply xwp_make_inner; [lia| |undone0 h|now exists 1]. intros _.
  apply xwp_bind. unfold values. cbn [snd]. apply xwp_ret.
  apply xwp_bind. apply xwp_try. apply xwp_bind. apply xwp_uninit; [srcne2|len|src2|lia| |].
  - apply xwp_try. apply xwp_throw.
    + apply xwp_ret. now apply makes_inner_put.
    + intros _. apply wp_destroy; [len|lia|]. apply wp_deallocate_inner. undone2.
  - apply wp_deallocate_inner. undone2.
Qed.
Theorem copy_inner_without_ok src nv v h : has_elements h src nv -> v < nv ->
  all_or_nothing (copy_inner_without src nv v) h (makes_inner h (nv - 1)).
Proof.
  intros S H. apply all_of. apply xwp_bind. apply xwp_make_inner; [| |undone0 h|now exists 1].
  - intros E. apply xwp_bind. destruct (Nat.ltb_spec 1 nv); [lia|]. apply xwp_ret. apply xwp_ret.
    split; auto. rewrite E. auto.
  - intros L. apply xwp_bind. destruct (Nat.ltb_spec 1 nv); [|lia]. apply xwp_bind.
    unfold values. cbn [snd]. apply xwp_ret. apply xwp_try. apply xwp_bind.
    apply xwp_uninit; [srcne2|len|src2|lia| |].
    + apply xwp_try. apply xwp_uninit; [srcne2|len|src2|lia| |].
      * apply xwp_ret. apply makes_inner_put; lia.
      * apply wp_destroy; [len|lia|]. apply wp_deallocate_inner. undone2.
    + apply wp_deallocate_inner. undone2.
Qed.
Theorem copy_inner_with_ok src nv v h : has_elements h src nv \/ nv = 0 -> v <= nv ->
  all_or_nothing (copy_inner_with src nv v) h (makes_inner h (nv + 1)).
Proof.
  intros Hs H. apply all_of. apply xwp_bind. apply xwp_make_inner; [lia| |undone0 h|now exists 1].
  intros _. apply xwp_bind. unfold values. cbn [snd]. apply xwp_ret.
  apply xwp_bind. apply xwp_try. apply xwp_bind.
  destruct (Nat.eqb_spec nv 0) as [->|N].
  - assert (v = 0) as -> by lia. apply xwp_ret. go2; cbn [Nat.add].
    + apply xwp_ret. apply xwp_ret. now apply makes_inner_put.
    + undone2.
  - destruct Hs as [Hs|Hs]; [|lia]. apply xwp_uninit; [srcne2|len|src2|lia| |].
    + go2.
      * replace (S (0 + v)) with (v + 1) by lia. go2.
        -- apply xwp_ret. apply makes_inner_put; lia.
        -- replace (v + 1) with (S v) by lia. go2. apply (wp_destroy _ 0 v); [len|lia|]. go2. undone2.
      * apply wp_destroy; [len|lia|]. go2. undone2.
    + apply wp_deallocate_inner. undone2.
Qed.
