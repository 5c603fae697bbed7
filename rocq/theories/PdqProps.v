(** C146, C147: the sorting procedures behind algox/sortx and timex/intersectionx,
    run as they are written. *)
From Verif Require Import Base SortModel SortProofs SortProps PdqModel PdqStable PdqProofs InterSpec InterModel InterProofs InterProps.
From Coq Require Import Sorting.Sorted.

(** sortx.go:8-50, on the code of the library *)
Definition go_sort {A} (lt : A -> A -> bool) next (s : list A) (reverse : bool) : res (list A) := sort_func (fun i j => lt i j) next s.
Definition go_sort_reverse {A} (lt : A -> A -> bool) next (s : list A) : res (list A) := sort_func (fun i j => lt j i) next s.
Definition go_sort_stable {A} (lt : A -> A -> bool) (s : list A) : res (list A) := sort_stable_func (fun i j => lt i j) s.
Definition go_sort_stable_reverse {A} (lt : A -> A -> bool) (s : list A) : res (list A) := sort_stable_func (fun i j => lt j i) s.
(** intersectionx.go:85-103, on the code of the library *)
Definition offset_less (a b : tuple) : bool := (a.1 <? b.1)%Z.
Definition go_intersection next (l : list interval) : res (Z * Z * bool) :=
  match l with
  | [i] => Ret (i64 (iv_off i - iv_band i), i64 (iv_off i + iv_band i), true)
  | _ => let! s := sort_func offset_less next (concat (map tuples l)) in Ret (intersection s)
  end.

(** C146: for every comparison, every slice and every random source, the sorts return,
    with a permutation; in order if the comparison is a strict weak order, and the
    stable one has exactly one possible result *)
Theorem sort_func_contract {A} (less : A -> A -> bool) next s : exists s', sort_func less next s = Ret s' /\ sort_custom s less s'.
Proof. destruct (sort_func_spec less next s) as (s' & E & P & S). exists s'. split; [exact E|]. split; assumption. Qed.
Print Assumptions sort_func_contract.
Theorem sort_stable_func_contract {A} (less : A -> A -> bool) s : exists s', sort_stable_func less s = Ret s' /\ sort_stable_custom s less s'.
Proof. destruct (sort_stable_func_spec less s) as (s' & E & P & S & T). exists s'. split; [exact E|]. split; [split; assumption|exact T]. Qed.
Print Assumptions sort_stable_func_contract.
Theorem sort_stable_func_exact {A} (less : A -> A -> bool) s : strict_weak less -> sort_stable_func less s = Ret (isort less s).
Proof.
  intros W. destruct (sort_stable_func_contract less s) as (s' & -> & H). f_equal. apply (sort_stable_unique less s s' W). exact H.
Qed.
Print Assumptions sort_stable_func_exact.
Lemma flip_strict_weak {A} (lt : A -> A -> bool) : strict_weak lt -> strict_weak (fun i j => lt j i).
Proof.
  intros W. split.
  - intros a. apply (sw_irrefl _ W).
  - intros a b c H1 H2. exact (sw_trans _ W _ _ _ H2 H1).
  - intros a b c H1 H2. exact (sw_incomp _ W _ _ _ H2 H1).
Qed.
(** Sort then IsSorted, SortReverse then IsSortedReverse, for the four functions *)
Theorem go_sorts_are_sorted {A} (lt : A -> A -> bool) next s r : strict_weak lt ->
  (exists s', go_sort lt next s r = Ret s' /\ s' ≡ₚ s /\ ascending lt s' /\ is_sorted lt s' = Ret true) /\
  (exists s', go_sort_reverse lt next s = Ret s' /\ s' ≡ₚ s /\ descending lt s' /\ is_sorted_reverse lt s' = Ret true) /\
  (exists s', go_sort_stable lt s = Ret s' /\ s' ≡ₚ s /\ ascending lt s' /\ is_sorted lt s' = Ret true) /\
  (exists s', go_sort_stable_reverse lt s = Ret s' /\ s' ≡ₚ s /\ descending lt s' /\ is_sorted_reverse lt s' = Ret true).
Proof.
  intros W. split_and!.
  - destruct (sort_func_contract (fun i j => lt i j) next s) as (s' & E & H). exists s'. split; [exact E|].
    destruct (sort_ascending lt s r s' W H) as [P S]. split_and!; [exact P|exact S|exact (sort_then_is_sorted lt s r s' W H)].
  - destruct (sort_func_contract (fun i j => lt j i) next s) as (s' & E & H). exists s'. split; [exact E|].
    destruct (sort_reverse_descending lt s s' W H) as [P S]. split_and!; [exact P|exact S|exact (sort_reverse_then_is_sorted lt s s' W (or_introl H))].
  - destruct (sort_stable_func_contract (fun i j => lt i j) s) as (s' & E & H). exists s'. split; [exact E|].
    destruct (sort_stable_ascending lt s s' W H) as (P & S & _). split_and!; [exact P|exact S|exact (sort_stable_then_is_sorted lt s s' W H)].
  - destruct (sort_stable_func_contract (fun i j => lt j i) s) as (s' & E & H). exists s'. split; [exact E|].
    destruct (sort_stable_reverse_descending lt s s' W H) as (P & S & _). split_and!; [exact P|exact S|exact (sort_reverse_then_is_sorted lt s s' W (or_intror H))].
Qed.
Print Assumptions go_sorts_are_sorted.
(** two runs with different random sources agree, if equivalent elements are equal *)
Theorem sort_func_source {A} (less : A -> A -> bool) next next' s : strict_weak less -> tight less -> sort_func less next s = sort_func less next' s.
Proof.
  intros W T. destruct (sort_func_contract less next s) as (s1 & -> & H1). destruct (sort_func_contract less next' s) as (s2 & -> & H2).
  f_equal. exact (sort_unique less s true true s1 s2 W T H1 H2).
Qed.
Print Assumptions sort_func_source.
(** Intersection run on it: one of the results of the model of C55-C57, whatever the source *)
Lemma offset_strict_weak : strict_weak offset_less.
Proof.
  split; unfold offset_less.
  - intros a. apply Z.ltb_irrefl.
  - intros a b c H1 H2. apply Z.ltb_lt in H1, H2. apply Z.ltb_lt. lia.
  - intros a b c H1 H2. apply Z.ltb_ge in H1, H2. apply Z.ltb_ge. lia.
Qed.
Lemma ss_impl {A} (R Q : A -> A -> Prop) l : (forall a b, R a b -> Q a b) -> StronglySorted R l -> StronglySorted Q l.
Proof. intros H. induction 1 as [|a l S IH F]; constructor; [exact IH|]. eapply List.Forall_impl; [|exact F]. intros b. apply H. Qed.
Theorem intersection_code next l : exists r, go_intersection next l = Ret r /\ inter l r.
Proof.
  assert (G : length l <> 1%nat -> exists r, (let! s := sort_func offset_less next (concat (map tuples l)) in Ret (intersection s)) = Ret r /\ inter l r).
  { intros N. destruct (sort_func_contract offset_less next (concat (map tuples l))) as (s & -> & P & S). exists (intersection s). split; [reflexivity|].
    constructor; [exact N|]. split; [exact P|]. eapply ss_impl; [|exact (S offset_strict_weak)]. unfold offset_less, tle. intros a b H. apply Z.ltb_ge in H. exact H. }
  destruct l as [|i [|j l]]; [apply G; discriminate| |apply G; discriminate].
  exists (i64 (iv_off i - iv_band i), i64 (iv_off i + iv_band i), true). split; [reflexivity|]. constructor. reflexivity.
Qed.
Print Assumptions intersection_code.
(** a run that goes through partition, the recursion and the merge *)
Definition ex_keys : list Z := (fun i => (Z.of_nat i * 7919) mod 211)%Z <$> seq 0 60.
Example sort_run : exists s', sort_func Z.ltb (fun r => r + 1)%Z ex_keys = Ret s' /\ sort_stable_func Z.ltb ex_keys = Ret s' /\ firstn 5 s' = [0; 2; 5; 10; 13]%Z.
Proof. eexists. split; [vm_compute; reflexivity|]. split; vm_compute; reflexivity. Qed.
(** a random source that always answers 0: the heap sort is reached and the result is the same *)
Example heap_run : sort_func Z.ltb (fun _ => 0)%Z [5; 3; 9; 1]%Z = Ret [1; 3; 5; 9]%Z /\ heap_sort Z.ltb ex_keys 0 60 = sort_stable_func Z.ltb ex_keys.
Proof. split; vm_compute; reflexivity. Qed.

(** C147: Sort and SortCustom keep the order of equivalent elements: false *)
Definition by_key (x y : Z * Z) : bool := (x.1 <? y.1)%Z.
Definition thirteen : list (Z * Z) := (fun i => ((Z.of_nat i * 5) mod 3, Z.of_nat i)%Z) <$> seq 0 13.
Theorem sort_stability_refuted : exists (s : list (Z * Z)) s', length s = 13%nat /\ strict_weak by_key /\
  (forall next, sort_func by_key next s = Ret s') /\ ~ sort_stable_custom s by_key s'.
Proof.
  exists thirteen. eexists. split; [reflexivity|]. split.
  { split; unfold by_key.
    - intros a. apply Z.ltb_irrefl.
    - intros a b c H1 H2. apply Z.ltb_lt in H1, H2. apply Z.ltb_lt. lia.
    - intros a b c H1 H2. apply Z.ltb_ge in H1, H2. apply Z.ltb_ge. lia. }
  split; [intros next; vm_compute; reflexivity|]. intros [_ H].
  assert (W : strict_weak by_key) by exact offset_strict_weak.
  specialize (H W (0, 0)%Z). vm_compute in H. discriminate.
Qed.
Print Assumptions sort_stability_refuted.
(** what holds: up to 12 elements the sort is stable, so that its result is that of the
    stable sort *)
Theorem sort_stability_partial {A} (less : A -> A -> bool) next s : (length s <= 12)%nat ->
  exists s', sort_func less next s = Ret s' /\ sort_stable_custom s less s'.
Proof.
  intros L. unfold sort_func. cbn [pdq_loop]. rewrite Nat.sub_0_r. replace (length s <=? 12) with true by (symmetry; apply Nat.leb_le; exact L).
  destruct (insertion_spec less [] s [] 0 (length s) eq_refl eq_refl) as (s' & E & w & -> & P & S & T). cbn [app] in E. rewrite app_nil_r in E. rewrite app_nil_r in E.
  exists w. split; [exact E|]. split; [split; assumption|exact T].
Qed.
Print Assumptions sort_stability_partial.
Corollary sort_small_exact {A} (less : A -> A -> bool) next s : (length s <= 12)%nat -> strict_weak less ->
  sort_func less next s = sort_stable_func less s.
Proof.
  intros L W. destruct (sort_stability_partial less next s L) as (s' & -> & H). rewrite (sort_stable_func_exact less s W). f_equal.
  apply (sort_stable_unique less s s' W). exact H.
Qed.
Print Assumptions sort_small_exact.
(** with a NaN the result need not be in order, although IsSorted says so; neither sort
    loses an element or fails to return *)
Theorem sort_nan_refuted : forall next, go_sort flt next [Some 2; None; Some 1]%Z false = Ret [Some 2; None; Some 1]%Z /\
  go_sort_stable flt [Some 2; None; Some 1]%Z = Ret [Some 2; None; Some 1]%Z /\ ~ ascending flt [Some 2; None; Some 1]%Z.
Proof. intros next. split; [reflexivity|]. split; [reflexivity|]. exact (proj2 is_sorted_nan_refuted). Qed.
Print Assumptions sort_nan_refuted.

(** Intersection of at most four intervals: the sort is the insertion sort, and the result
    the one that [inter_small] computes *)
Lemma insert_tuple_split x l : StronglySorted tle l -> exists u1 u2, l = u1 ++ u2 /\ insert_tuple x l = u1 ++ x :: u2 /\ forall y, y ∈ u2 -> offset_less x y = true.
Proof.
  induction 1 as [|y l S IH F]; [exists [], []; split_and!; [reflexivity|reflexivity|intros y Hy; inversion Hy]|]. cbn [insert_tuple].
  destruct (x.1 <? y.1)%Z eqn:E.
  - exists [], (y :: l). split_and!; [reflexivity|reflexivity|]. intros z Hz. unfold offset_less. apply elem_of_cons in Hz as [->|Hz]; [exact E|].
    rewrite List.Forall_forall in F. apply elem_of_list_In in Hz. specialize (F z Hz). unfold tle in F. apply Z.ltb_lt in E. apply Z.ltb_lt. lia.
  - destruct IH as (u1 & u2 & -> & IH & H). exists (y :: u1), u2. rewrite IH. split_and!; [reflexivity|reflexivity|exact H].
Qed.
Lemma insertion_sort_stable l : stb offset_less l (insertion_sort l).
Proof.
  unfold insertion_sort. induction l as [|x l IH] using rev_ind; [apply stb_refl|]. rewrite foldl_app. cbn [foldl].
  destruct (insertion_sort_sorts l) as [_ S]. unfold insertion_sort in S. destruct (insert_tuple_split x _ S) as (u1 & u2 & E & -> & H).
  eapply stb_trans; [apply stb_app; [exact IH|apply stb_refl]|]. rewrite E, <- app_assoc. apply stb_app; [apply stb_refl|].
  change (x :: u2) with ([x] ++ u2). apply stb_swap. intros y z Hy Hz. apply elem_of_list_singleton in Hz as ->. apply H. exact Hy.
Qed.
Theorem intersection_code_small next l : (length l <= 4)%nat -> go_intersection next l = Ret (inter_small l).
Proof.
  intros L. assert (G : (let! s := sort_func offset_less next (concat (map tuples l)) in Ret (intersection s)) = Ret (intersection (insertion_sort (concat (map tuples l))))).
  { assert (L' : (length (concat (map tuples l)) <= 12)%nat).
    { assert (E : length (concat (map tuples l)) = (3 * length l)%nat); [|lia]. clear. induction l as [|i l IH]; [reflexivity|]. cbn [map concat]. rewrite app_length, IH. cbn. lia. }
    rewrite (sort_small_exact offset_less next _ L' offset_strict_weak), (sort_stable_func_exact _ _ offset_strict_weak). cbn [rbind]. f_equal. f_equal.
    symmetry. apply (sort_stable_unique offset_less _ _ offset_strict_weak). destruct (insertion_sort_sorts (concat (map tuples l))) as [P S]. split.
    - split; [exact P|]. intros _. eapply ss_impl; [|exact S]. unfold tle. intros a b H. apply Z.ltb_ge. exact H.
    - exact (insertion_sort_stable _). }
  destruct l as [|i [|j l]]; [exact G|reflexivity|exact G].
Qed.
Example sort_stable_func_exact_case := sort_stable_func_exact Z.ltb ex_keys (proj1 search_ex).
Example go_sorts_case := go_sorts_are_sorted Z.ltb (fun r => r + 1)%Z ex_keys true (proj1 search_ex).
Example sort_func_source_case := sort_func_source Z.ltb (fun r => r + 1)%Z (fun _ => 0)%Z ex_keys (proj1 search_ex) (proj1 (proj2 search_ex)).
Example sort_small_exact_case := sort_small_exact Z.ltb (fun r => r + 1)%Z [5; 3; 9; 1]%Z ltac:(cbn; lia) (proj1 search_ex).
Example intersection_code_small_case := intersection_code_small (fun r => r + 1)%Z [IV 5 10; IV 2 5; IV 3 6] ltac:(cbn; lia).
Print Assumptions intersection_code_small.
