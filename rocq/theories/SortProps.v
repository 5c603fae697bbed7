(** Properties of algox/searchx (C83, C94) and algox/sortx (C84, C85, C95). *)
From Coq Require Import Sorting.Sorted.
From Verif Require Import Base SortModel SortProofs.
Local Open Scope Z.
Lemma Z_strict_weak : strict_weak Z.ltb.
Proof. constructor; intros *; rewrite ?Z.ltb_lt, ?Z.ltb_ge; lia. Qed.
(** an order in which incomparable means equal, such as that of integers and strings *)
Definition tight {A} (lt : A -> A -> bool) : Prop := forall a b, lt a b = false -> lt b a = false -> a = b.
Lemma Z_tight : tight Z.ltb.
Proof. intros a b. rewrite !Z.ltb_ge. lia. Qed.
(** s is ascending *)
Definition ascending {A} (lt : A -> A -> bool) (s : list A) : Prop := forall i j a b, (i < j)%nat -> s !! i = Some a -> s !! j = Some b -> lt b a = false.
Definition descending {A} (lt : A -> A -> bool) (s : list A) : Prop := forall i j a b, (i < j)%nat -> s !! i = Some a -> s !! j = Some b -> lt a b = false.
Lemma ascending_iff {A} (lt : A -> A -> bool) s : ascending lt s <-> StronglySorted (fun a b => lt b a = false) s.
Proof. split; [apply ss_of_lookup|]. intros H i j a b. apply (ss_lookup _ _ H). Qed.

(** C83: on an ascending slice, the leftmost position; in at most 64 rounds *)
Theorem search_leftmost {A} (lt : A -> A -> bool) s x fuel :
  strict_weak lt -> ascending lt s -> Z.of_nat (length s) < 2^63 -> (64 <= fuel)%nat ->
  exists pos found, search lt fuel s x = Ret (pos, found) /\ 0 <= pos <= Z.of_nat (length s) /\
    (forall i a, s !! i = Some a -> (lt a x = true <-> Z.of_nat i < pos)) /\
    (found = true <-> exists a, a ∈ s /\ lt a x = false /\ lt x a = false).
Proof.
  intros W As Hn Hf. destruct (search_custom_spec fuel s x (search_cmp lt) Hn Hf) as (pos & found & E1 & E2 & E3 & E4 & E5).
  exists pos, found. split; [exact E1|]. split; [exact E2|].
  assert (Pos : forall i a, s !! i = Some a -> (lt a x = true <-> Z.of_nat i < pos)).
  { intros i a Hi. split.
    - intros L. destruct (Z.lt_ge_cases (Z.of_nat i) pos) as [H|H]; [exact H|]. exfalso. pose proof (lookup_lt_Some _ _ _ Hi).
      destruct E4 as [->|(b & B1 & B2)]; [lia|]. apply cmp_nonneg in B2.
      assert (lt a b = false).
      { destruct (decide (i = Z.to_nat pos)) as [->|]; [assert (a = b) as -> by congruence; apply (sw_irrefl _ W)|]. apply (As (Z.to_nat pos) i); [lia|assumption|assumption]. }
      rewrite (sw_incomp _ W a b x) in L by assumption. discriminate.
    - intros H. destruct E3 as [->|(b & B1 & B2)]; [lia|]. apply cmp_neg in B2. destruct (lt a x) eqn:L; [reflexivity|]. exfalso.
      assert (lt b a = false).
      { destruct (decide (i = Z.to_nat (pos - 1))) as [->|]; [assert (a = b) as -> by congruence; apply (sw_irrefl _ W)|]. apply (As i (Z.to_nat (pos - 1))); [lia|assumption|assumption]. }
      rewrite (sw_incomp _ W b a x) in B2 by assumption. discriminate. }
  split; [exact Pos|]. rewrite E5. split.
  - intros (a & A1 & A2). apply cmp_zero in A2. exists a. split; [eapply elem_of_list_lookup_2; exact A1|exact A2].
  - intros (a & A1 & A2 & A3). apply elem_of_list_lookup in A1 as [i Hi].
    assert (~ Z.of_nat i < pos) by (rewrite <- (Pos i a Hi); congruence). pose proof (lookup_lt_Some _ _ _ Hi).
    destruct (lookup_lt_is_Some_2 s (Z.to_nat pos)) as [b Hb]; [lia|]. exists b. split; [exact Hb|]. apply cmp_zero.
    assert (lt b x = false). { destruct (lt b x) eqn:L; [|reflexivity]. apply (Pos _ _ Hb) in L. lia. }
    split; [assumption|]. destruct (decide (i = Z.to_nat pos)) as [->|]; [congruence|].
    eapply (sw_incomp _ W); [exact A3|]. apply (As (Z.to_nat pos) i); [lia|assumption|assumption].
Qed.
Print Assumptions search_leftmost.
(** for an order such as that of integers and strings: the element itself *)
Theorem search_finds {A} (lt : A -> A -> bool) s x fuel :
  strict_weak lt -> tight lt -> ascending lt s -> Z.of_nat (length s) < 2^63 -> (64 <= fuel)%nat ->
  exists pos found, search lt fuel s x = Ret (pos, found) /\ (found = true <-> x ∈ s) /\ (found = true -> s !! Z.to_nat pos = Some x).
Proof.
  intros W T As Hn Hf. destruct (search_leftmost lt s x fuel W As Hn Hf) as (pos & found & E1 & E2 & E3 & E4).
  exists pos, found. split; [exact E1|]. split.
  - rewrite E4. split; [intros (a & A1 & A2 & A3); rewrite (T x a A3 A2); exact A1|]. intros H. exists x. split; [exact H|]. split; apply (sw_irrefl _ W).
  - intros F. destruct (search_custom_spec fuel s x (search_cmp lt) Hn Hf) as (p & f & F1 & _ & _ & _ & F5).
    unfold search in E1. rewrite E1 in F1. injection F1 as <- <-. apply F5 in F as (a & A1 & A2). apply cmp_zero in A2 as [A2 A3]. rewrite A1, (T a x A2 A3). reflexivity.
Qed.
Print Assumptions search_finds.
Example search_ex : strict_weak Z.ltb /\ tight Z.ltb /\ ascending Z.ltb [1; 3; 3; 3; 7] /\ search Z.ltb 64 [1; 3; 3; 3; 7] 3 = Ret (1, true) /\ search Z.ltb 64 [1; 3; 3; 3; 7] 5 = Ret (4, false).
Proof.
  split; [apply Z_strict_weak|]. split; [apply Z_tight|]. split; [|split; reflexivity].
  apply ascending_iff. repeat (constructor; [|repeat (constructor; [reflexivity|]); constructor]). constructor.
Qed.
(** on any slice, and for any operator <: no panic, an index within bounds, and what is
    "found" is neither less nor greater *)
Theorem search_any {A} (lt : A -> A -> bool) s x fuel : Z.of_nat (length s) < 2^63 -> (64 <= fuel)%nat ->
  exists pos found, search lt fuel s x = Ret (pos, found) /\ 0 <= pos <= Z.of_nat (length s) /\
    (found = true -> exists a, s !! Z.to_nat pos = Some a /\ lt a x = false /\ lt x a = false).
Proof.
  intros Hn Hf. destruct (search_custom_spec fuel s x (search_cmp lt) Hn Hf) as (pos & found & E1 & E2 & _ & _ & E5).
  exists pos, found. split; [exact E1|]. split; [exact E2|]. intros F. apply E5 in F as (a & A1 & A2). exists a. split; [exact A1|]. apply cmp_zero. exact A2.
Qed.
Print Assumptions search_any.
(** C94: SearchCustom, with any comparison function: the slice only has to be split by
    "less than x" *)
Theorem search_custom_leftmost {A} (s : list A) x cmp fuel p :
  Z.of_nat (length s) < 2^63 -> (64 <= fuel)%nat ->
  (forall i a, s !! i = Some a -> (cmp a x < 0 <-> (i < p)%nat)) -> (p <= length s)%nat ->
  exists found, search_custom fuel s x cmp = Ret (Z.of_nat p, found) /\ (found = true <-> exists a, s !! p = Some a /\ cmp a x = 0).
Proof.
  intros Hn Hf Sp Hp. destruct (search_custom_spec fuel s x cmp Hn Hf) as (pos & found & E1 & E2 & E3 & E4 & E5).
  assert (pos = Z.of_nat p).
  { destruct E3 as [E3|(a & A1 & A2)]; destruct E4 as [E4|(b & B1 & B2)].
    - lia.
    - assert (~ (Z.to_nat pos < p)%nat) by (rewrite <- (Sp _ _ B1); lia). lia.
    - apply (Sp _ _ A1) in A2. lia.
    - apply (Sp _ _ A1) in A2. assert (~ (Z.to_nat pos < p)%nat) by (rewrite <- (Sp _ _ B1); lia). lia. }
  subst pos. exists found. split; [exact E1|]. rewrite Nat2Z.id in E5. exact E5.
Qed.
Print Assumptions search_custom_leftmost.
Example search_custom_ex : search_custom 64 [10; 21; 35] 2 (fun a x => a / 10 - x) = Ret (1, true).
Proof. reflexivity. Qed.
(** floats: NaN (here None) is neither less nor greater than anything, so Search finds
    the key 1 in a slice that does not hold it *)
Definition flt (a b : option Z) : bool := match a, b with Some a, Some b => a <? b | _, _ => false end.
Theorem search_nan_refuted : exists (s : list (option Z)) (x : option Z), ascending flt s /\ x ∉ s /\ search flt 64 s x = Ret (0, true).
Proof.
  exists [None], (Some 1). split; [|split; [|reflexivity]].
  - intros i j a b Hij Hi Hj. destruct j as [|[|j]]; [lia|discriminate|discriminate].
  - rewrite elem_of_list_singleton. discriminate.
Qed.
Print Assumptions search_nan_refuted.

(** C84: Sort does not look at its flag *)
Theorem sort_ignores_reverse {A} (lt : A -> A -> bool) s r r' s' : sort lt s r s' <-> sort lt s r' s'.
Proof. reflexivity. Qed.
Print Assumptions sort_ignores_reverse.
Theorem sort_ascending {A} (lt : A -> A -> bool) s r s' : strict_weak lt -> sort lt s r s' -> s' ≡ₚ s /\ ascending lt s'.
Proof. intros W [H1 H2]. split; [exact H1|]. apply ascending_iff. exact (H2 W). Qed.
Print Assumptions sort_ascending.
Theorem sort_reverse_flag_refuted {A} (lt : A -> A -> bool) s s' a b : strict_weak lt -> sort lt s true s' -> a ∈ s -> b ∈ s -> lt a b = true -> ~ descending lt s'.
Proof.
  intros W H Ha Hb L D. destruct (sort_ascending lt s true s' W H) as [P As].
  rewrite <- P in Ha, Hb. apply elem_of_list_lookup in Ha as [i Hi]. apply elem_of_list_lookup in Hb as [j Hj].
  destruct (Nat.lt_total i j) as [?|[->|?]].
  - rewrite (D i j a b) in L by assumption. discriminate.
  - assert (a = b) as -> by congruence. rewrite (sw_irrefl _ W) in L. discriminate.
  - rewrite (As j i b a) in L by assumption. discriminate.
Qed.
Print Assumptions sort_reverse_flag_refuted.
Example sort_ex : sort Z.ltb [3; 1; 2] true [1; 2; 3] /\ ~ descending Z.ltb [1; 2; 3].
Proof.
  split.
  - split; [|intros _; apply ascending_iff; intros [|[|[|i]]] [|[|[|j]]] a b; cbn; intros Hij Hi Hj; try lia; try discriminate; injection Hi as <-; injection Hj as <-; reflexivity].
    rewrite (Permutation_cons_append [1; 2] 3). reflexivity.
  - intros D. specialize (D 0%nat 1%nat 1 2 ltac:(lia) eq_refl eq_refl). discriminate.
Qed.

(** C85: the other sorts *)
Theorem sort_reverse_descending {A} (lt : A -> A -> bool) s s' : strict_weak lt -> sort_reverse lt s s' -> s' ≡ₚ s /\ descending lt s'.
Proof. intros W [H1 H2]. split; [exact H1|]. apply (ascending_iff (fun i j => lt j i)). exact (H2 (strict_weak_flip _ W)). Qed.
Print Assumptions sort_reverse_descending.
Theorem sort_stable_ascending {A} (lt : A -> A -> bool) s s' : strict_weak lt -> sort_stable lt s s' ->
  s' ≡ₚ s /\ ascending lt s' /\ forall a, List.filter (equivalent lt a) s' = List.filter (equivalent lt a) s.
Proof. intros W [[H1 H2] H3]. split; [exact H1|]. split; [apply ascending_iff; exact (H2 W)|]. intros a. exact (H3 W a). Qed.
Print Assumptions sort_stable_ascending.
Theorem sort_stable_reverse_descending {A} (lt : A -> A -> bool) s s' : strict_weak lt -> sort_stable_reverse lt s s' ->
  s' ≡ₚ s /\ descending lt s' /\ forall a, List.filter (equivalent lt a) s' = List.filter (equivalent lt a) s.
Proof.
  intros W [[H1 H2] H3]. split; [exact H1|]. split; [apply (ascending_iff (fun i j => lt j i)); exact (H2 (strict_weak_flip _ W))|].
  intros a. pose proof (H3 (strict_weak_flip _ W) a) as F.
  erewrite (List.filter_ext (equivalent lt a)), F; [apply List.filter_ext|]; intros b; unfold equivalent; apply andb_comm.
Qed.
Print Assumptions sort_stable_reverse_descending.
(** so the result is determined: by the order if incomparable means equal, *)
Theorem sort_unique {A} (lt : A -> A -> bool) s r r' s1 s2 : strict_weak lt -> tight lt -> sort lt s r s1 -> sort lt s r' s2 -> s1 = s2.
Proof. intros W T [P1 H1] [P2 H2]. apply (sorted_perm_unique lt s1 T); [exact (H1 W)|exact (H2 W)|]. rewrite P1, P2. reflexivity. Qed.
Print Assumptions sort_unique.
(** and always for the stable sort; it is what insertion sort gives *)
Theorem sort_stable_unique {A} (lt : A -> A -> bool) s s' : strict_weak lt -> (sort_stable lt s s' <-> s' = isort lt s).
Proof.
  intros W. split.
  - intros [[P H] F]. apply (stable_unique lt s' W); [exact (H W)|apply isort_sorted; exact W|rewrite P, isort_perm; reflexivity|]. intros a. rewrite (F W), isort_stable by exact W. reflexivity.
  - intros ->. split; [split; [apply isort_perm|intros _; apply isort_sorted; exact W]|]. intros _ a. apply isort_stable. exact W.
Qed.
Print Assumptions sort_stable_unique.
Theorem sort_reverse_is_rev {A} (lt : A -> A -> bool) s r s1 s2 : strict_weak lt -> tight lt -> sort lt s r s1 -> sort_reverse lt s s2 -> s2 = rev s1.
Proof.
  intros W T H1 H2. pose proof (sort_ascending lt s r s1 W H1) as [P1 A1]. destruct H2 as [P2 S2]. specialize (S2 (strict_weak_flip _ W)).
  apply (sorted_perm_unique (fun i j => lt j i) s2); [intros a b E1 E2; apply T; assumption|exact S2| |rewrite P2, <- P1; apply Permutation_rev].
  apply (ascending_iff (fun i j => lt j i)). intros i j a b Hij Hi Hj.
  pose proof (lookup_lt_Some _ _ _ Hj) as Lj. rewrite rev_length in Lj. rewrite rev_alt in Hi, Hj. change (rev_append s1 []) with (reverse s1) in Hi, Hj.
  rewrite reverse_lookup in Hi, Hj by lia. apply (A1 (length s1 - S j)%nat (length s1 - S i)%nat b a); [lia|exact Hj|exact Hi].
Qed.
Print Assumptions sort_reverse_is_rev.
(** IsSorted answers exactly *)
Theorem is_sorted_exact {A} (lt : A -> A -> bool) s : strict_weak lt -> exists b, is_sorted lt s = Ret b /\ (b = true <-> ascending lt s).
Proof.
  intros W. unfold is_sorted, is_sorted_custom. destruct (is_sorted_loop_spec (fun i j => lt i j) s (length s - 1)) as (b & E1 & E2); [lia|].
  exists b. split; [exact E1|]. rewrite E2. split.
  - intros H. apply ascending_iff. apply (local_sorted lt s W). exact H.
  - intros H i a c Hi Ha Hc. apply (H i (S i)); [lia|exact Ha|exact Hc].
Qed.
Print Assumptions is_sorted_exact.
Theorem is_sorted_reverse_exact {A} (lt : A -> A -> bool) s : strict_weak lt -> exists b, is_sorted_reverse lt s = Ret b /\ (b = true <-> descending lt s).
Proof. intros W. exact (is_sorted_exact (fun i j => lt j i) s (strict_weak_flip _ W)). Qed.
Print Assumptions is_sorted_reverse_exact.
Theorem sort_then_is_sorted {A} (lt : A -> A -> bool) s r s' : strict_weak lt -> sort lt s r s' -> is_sorted lt s' = Ret true.
Proof. intros W H. destruct (is_sorted_exact lt s' W) as (b & E1 & E2). rewrite E1. f_equal. apply E2. apply (sort_ascending lt s r s' W H). Qed.
Print Assumptions sort_then_is_sorted.
Theorem sort_reverse_then_is_sorted {A} (lt : A -> A -> bool) s s' : strict_weak lt -> sort_reverse lt s s' \/ sort_stable_reverse lt s s' -> is_sorted_reverse lt s' = Ret true.
Proof.
  intros W H. destruct (is_sorted_reverse_exact lt s' W) as (b & E1 & E2). rewrite E1. f_equal. apply E2.
  destruct H as [H|H]; [apply (sort_reverse_descending lt s s' W H)|apply (sort_stable_reverse_descending lt s s' W H)].
Qed.
Print Assumptions sort_reverse_then_is_sorted.
Theorem sort_stable_then_is_sorted {A} (lt : A -> A -> bool) s s' : strict_weak lt -> sort_stable lt s s' -> is_sorted lt s' = Ret true.
Proof. intros W [H _]. exact (sort_then_is_sorted lt s false s' W H). Qed.
Print Assumptions sort_stable_then_is_sorted.
Example sorts_ex : is_sorted Z.ltb [1; 2; 2; 5] = Ret true /\ is_sorted Z.ltb [1; 3; 2; 5] = Ret false /\ is_sorted_reverse Z.ltb [5; 2; 2; 1] = Ret true /\
  isort (fun a b => a / 10 <? b / 10) [23; 11; 21; 15; 2] = [2; 11; 15; 23; 21].
Proof. repeat split; reflexivity. Qed.
(** C95: with NaN, IsSorted says true of a slice that is not sorted *)
Theorem is_sorted_nan_refuted : is_sorted flt [Some 2; None; Some 1] = Ret true /\ ~ ascending flt [Some 2; None; Some 1].
Proof. split; [reflexivity|]. intros H. specialize (H 0%nat 2%nat (Some 2) (Some 1) ltac:(lia) eq_refl eq_refl). discriminate. Qed.
Print Assumptions is_sorted_nan_refuted.
(** for any operator, what IsSorted checks is the neighbours, without a panic *)
Theorem is_sorted_neighbours {A} (lt : A -> A -> bool) s :
  exists b, is_sorted lt s = Ret b /\ (b = true <-> forall i a c, s !! i = Some a -> s !! S i = Some c -> lt c a = false).
Proof.
  unfold is_sorted, is_sorted_custom. destruct (is_sorted_loop_spec (fun i j => lt i j) s (length s - 1)) as (b & E1 & E2); [lia|].
  exists b. split; [exact E1|]. rewrite E2. split; intros H i a c; [|intros _; apply H].
  intros Ha Hc. apply (H i); [|exact Ha|exact Hc]. apply lookup_lt_Some in Hc. lia.
Qed.
(** each theorem on a case that meets its hypotheses *)
Lemma ltb_weak : strict_weak Z.ltb. Proof. apply search_ex. Qed.
Lemma ltb_tight : tight Z.ltb. Proof. apply search_ex. Qed.
Example search_leftmost_case := search_leftmost Z.ltb [1; 3; 3; 3; 7] 3 64 ltb_weak (proj1 (proj2 (proj2 search_ex))) eq_refl (le_n _).
Example search_finds_case := search_finds Z.ltb [1; 3; 3; 3; 7] 3 64 ltb_weak ltb_tight (proj1 (proj2 (proj2 search_ex))) eq_refl (le_n _).
Example search_any_case := search_any (fun _ _ => true) [3; 1; 2] 5 64 eq_refl (le_n _).
Example search_custom_case := search_custom_leftmost [10; 21; 35] 2 (fun a x => a / 10 - x) 64 1 eq_refl (le_n _)
  ltac:(intros i a H; do 3 (destruct i as [|i]; [injection H as <-; split; intros; first [reflexivity|discriminate|lia]|]); discriminate H) ltac:(cbn; lia).
Example sort_unique_case := sort_unique Z.ltb [3; 1; 2] true true [1; 2; 3] [1; 2; 3] ltb_weak ltb_tight (proj1 sort_ex) (proj1 sort_ex).
Example sort_stable_case := sort_stable_ascending Z.ltb [3; 1; 2] (isort Z.ltb [3; 1; 2]) ltb_weak (proj2 (sort_stable_unique Z.ltb [3; 1; 2] _ ltb_weak) eq_refl).
Example is_sorted_case := (is_sorted_exact Z.ltb [1; 2; 2; 5] ltb_weak, is_sorted_reverse_exact Z.ltb [5; 2; 2; 1] ltb_weak).
Print Assumptions is_sorted_neighbours.
