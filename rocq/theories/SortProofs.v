From Verif Require Import Base SortModel.
From Coq Require Import Sorting.Sorted.
Local Open Scope Z.

Lemma half i j : 0 <= i -> i < j -> j < 2^63 -> i64 (u64 (i64 (i + j)) / 2) = (i + j) / 2 /\ i <= (i + j) / 2 < j.
Proof.
  intros H1 H2 H3. assert (E : u64 (i64 (i + j)) = i + j).
  { unfold i64, u64. destruct (decide (i + j < 2^63)).
    - rewrite (Z.mod_small (i + j + 2^63)) by lia. rewrite Z.mod_small by lia. lia.
    - replace (i + j + 2^63) with (i + j - 2^63 + 1 * 2^64) by lia. rewrite Z.mod_add by lia. rewrite (Z.mod_small (i + j - 2^63)) by lia.
      replace (i + j - 2^63 - 2^63) with (i + j + (-1) * 2^64) by lia. rewrite Z.mod_add by lia. apply Z.mod_small. lia. }
  rewrite E. assert (i <= (i + j) / 2 < j).
  { split; [apply Z.div_le_lower_bound; lia|apply Z.div_lt_upper_bound; lia]. }
  split; [|assumption]. apply i64_id. unfold is_i64. lia.
Qed.
Lemma search_loop_spec (p : Z -> bool) (f : Z -> res bool) n : forall k fuel i j,
  (forall h, i <= h < j -> f h = Ret (p h)) -> 0 <= i -> i <= j -> j < 2^63 -> j - i < 2 ^ (Z.of_nat k) -> (k < fuel)%nat ->
  (i = 0 \/ p (i - 1) = false) -> (j = n \/ p j = true) ->
  exists pos, search_loop fuel f i j = Ret pos /\ i <= pos <= j /\ (pos = 0 \/ p (pos - 1) = false) /\ (pos = n \/ p pos = true).
Proof.
  induction k as [|k IH]; intros fuel i j Hf Hi Hij Hj Hk Hfuel P1 P2; (destruct fuel as [|fuel]; [lia|]); cbn [search_loop].
  - cbn in Hk. assert (i = j) by lia. subst j. rewrite Z.ltb_irrefl. exists i. split; [reflexivity|]. split; [lia|]. split; assumption.
  - destruct (Z.ltb_spec i j) as [L|L].
    2:{ assert (i = j) by lia. subst j. exists i. split; [reflexivity|]. split; [lia|]. split; assumption. }
    destruct (half i j Hi L Hj) as [E [B1 B2]]. cbv zeta. rewrite E. rewrite Hf by lia. cbn [rbind].
    rewrite Nat2Z.inj_succ, Z.pow_succ_r in Hk by lia.
    assert (Hd : i + j - 1 <= 2 * ((i + j) / 2) <= i + j) by (pose proof (Z.div_mod (i + j) 2); pose proof (Z.mod_pos_bound (i + j) 2); lia).
    destruct (p ((i + j) / 2)) eqn:P.
    + destruct (IH fuel i ((i + j) / 2)) as (pos & Q1 & Q2 & Q3 & Q4); try assumption; try lia; [intros; apply Hf; lia|right; exact P|].
      exists pos. split; [exact Q1|]. split; [lia|]. split; assumption.
    + rewrite i64_id by (unfold is_i64; lia).
      destruct (IH fuel ((i + j) / 2 + 1) j) as (pos & Q1 & Q2 & Q3 & Q4); try assumption; try lia; [intros; apply Hf; lia|right; rewrite Z.add_simpl_r; exact P|].
      exists pos. split; [exact Q1|]. split; [lia|]. split; assumption.
Qed.
Section search.
Context {A : Type} (lt : A -> A -> bool).
Lemma idx_in (s : list A) i : 0 <= i < Z.of_nat (length s) -> exists a, s !! Z.to_nat i = Some a /\ idx s i = Ret a.
Proof.
  intros H. unfold idx. destruct (Z.leb_spec 0 i); [|lia]. destruct (lookup_lt_is_Some_2 s (Z.to_nat i)) as [a E]; [lia|]. exists a. rewrite E. split; reflexivity.
Qed.
Lemma search_custom_spec fuel (s : list A) x cmp : Z.of_nat (length s) < 2^63 -> (64 <= fuel)%nat ->
  exists pos found, search_custom fuel s x cmp = Ret (pos, found) /\ 0 <= pos <= Z.of_nat (length s) /\
    (pos = 0 \/ exists a, s !! Z.to_nat (pos - 1) = Some a /\ cmp a x < 0) /\
    (pos = Z.of_nat (length s) \/ exists a, s !! Z.to_nat pos = Some a /\ 0 <= cmp a x) /\
    (found = true <-> exists a, s !! Z.to_nat pos = Some a /\ cmp a x = 0).
Proof.
  intros Hn Hf. unfold search_custom. set (n := Z.of_nat (length s)) in *.
  set (p := fun i => match s !! Z.to_nat i with Some a => 0 <=? cmp a x | None => false end).
  destruct (search_loop_spec p (fun i => let! a := idx s i in Ret (0 <=? cmp a x)) n 63 fuel 0 n) as (pos & E1 & E2 & E3 & E4); try (left; reflexivity); try (cbn; lia).
  { intros h Hh. destruct (idx_in s h Hh) as (a & F1 & F2). rewrite F2. cbn [rbind]. unfold p. rewrite F1. reflexivity. }
  rewrite E1. cbn [rbind].
  assert (G3 : pos = 0 \/ exists a, s !! Z.to_nat (pos - 1) = Some a /\ cmp a x < 0).
  { destruct E3 as [E3|E3]; [left; exact E3|]. destruct (decide (pos = 0)); [left; assumption|]. right. destruct (idx_in s (pos - 1)) as (a & F1 & _); [lia|].
    exists a. split; [exact F1|]. unfold p in E3. rewrite F1 in E3. apply Z.leb_gt in E3. exact E3. }
  assert (G4 : pos = n \/ exists a, s !! Z.to_nat pos = Some a /\ 0 <= cmp a x).
  { destruct E4 as [E4|E4]; [left; exact E4|]. right. unfold p in E4. destruct (s !! Z.to_nat pos) as [a|]; [|discriminate]. exists a. split; [reflexivity|]. apply Z.leb_le. exact E4. }
  destruct (Z.leb_spec n pos) as [L|L].
  - exists pos, false. split; [reflexivity|]. split; [lia|]. split; [exact G3|]. split; [exact G4|]. split; [discriminate|]. intros (a & F & _). apply lookup_lt_Some in F. lia.
  - destruct (idx_in s pos) as (a & F1 & F2); [lia|]. rewrite F2. cbn [rbind]. exists pos, (cmp a x =? 0). split; [reflexivity|]. split; [lia|]. split; [exact G3|]. split; [exact G4|].
    rewrite Z.eqb_eq. split; [intros E; exists a; split; assumption|]. intros (b & B1 & B2). congruence.
Qed.
Lemma cmp_neg a x : search_cmp lt a x < 0 <-> lt a x = true.
Proof. unfold search_cmp. destruct (lt a x), (lt x a); split; intros; congruence || lia. Qed.
Lemma cmp_nonneg a x : 0 <= search_cmp lt a x <-> lt a x = false.
Proof. unfold search_cmp. destruct (lt a x), (lt x a); split; intros; congruence || lia. Qed.
Lemma cmp_zero a x : search_cmp lt a x = 0 <-> lt a x = false /\ lt x a = false.
Proof. unfold search_cmp. destruct (lt a x), (lt x a); split; intros; intuition congruence || lia. Qed.
End search.

Section sorted.
Context {A : Type}.
Lemma ss_lookup (R : A -> A -> Prop) l : StronglySorted R l -> forall i j a b, (i < j)%nat -> l !! i = Some a -> l !! j = Some b -> R a b.
Proof.
  induction 1 as [|x l Hl IH Hx]; intros i j a b Hij Hi Hj; [discriminate|].
  destruct j as [|j]; [lia|]. destruct i as [|i]; cbn in Hi, Hj.
  - injection Hi as <-. rewrite List.Forall_forall in Hx. apply Hx. apply elem_of_list_In. eapply elem_of_list_lookup_2. exact Hj.
  - eapply IH; [|exact Hi|exact Hj]. lia.
Qed.
Lemma ss_of_lookup (R : A -> A -> Prop) l : (forall i j a b, (i < j)%nat -> l !! i = Some a -> l !! j = Some b -> R a b) -> StronglySorted R l.
Proof.
  induction l as [|x l IH]; intros H; constructor.
  - apply IH. intros i j a b Hij Hi Hj. apply (H (S i) (S j)); [lia|exact Hi|exact Hj].
  - apply List.Forall_forall. intros y Hy. apply elem_of_list_In in Hy. apply elem_of_list_lookup in Hy as [j Hj]. apply (H 0%nat (S j)); [lia|reflexivity|exact Hj].
Qed.
Context (less : A -> A -> bool).
Lemma is_sorted_loop_spec s n : (n < length s)%nat \/ n = 0%nat ->
  exists b, is_sorted_loop less s n = Ret b /\ (b = true <-> forall i a c, (i < n)%nat -> s !! i = Some a -> s !! S i = Some c -> less c a = false).
Proof.
  induction n as [|n IH]; intros Hn.
  - exists true. split; [reflexivity|]. split; [intros; lia|reflexivity].
  - cbn [is_sorted_loop]. destruct (idx_in s (Z.of_nat (S n))) as (a & A1 & A2); [lia|]. destruct (idx_in s (Z.of_nat n)) as (b & B1 & B2); [lia|].
    rewrite A2, B2. cbn [rbind]. rewrite Nat2Z.id in *. destruct (less a b) eqn:L.
    + exists false. split; [reflexivity|]. split; [discriminate|]. intros H. specialize (H n b a ltac:(lia) B1 A1). congruence.
    + destruct IH as (r & R1 & R2); [lia|]. exists r. split; [exact R1|]. rewrite R2. split.
      * intros H i x y Hi Hx Hy. destruct (decide (i = n)) as [->|]; [congruence|]. apply (H i); [lia|assumption|assumption].
      * intros H i x y Hi. apply (H i). lia.
Qed.
Lemma local_sorted s : strict_weak less -> (forall i a c, (i < length s - 1)%nat -> s !! i = Some a -> s !! S i = Some c -> less c a = false) ->
  StronglySorted (fun a b => less b a = false) s.
Proof.
  intros W H. apply ss_of_lookup. intros i j. revert i. induction j as [|j IH]; intros i a b Hij Hi Hj; [lia|].
  pose proof (lookup_lt_Some _ _ _ Hj). destruct (lookup_lt_is_Some_2 s j) as [c Hc]; [lia|].
  pose proof (H j c b ltac:(lia) Hc Hj) as H1. destruct (decide (i = j)) as [->|]; [congruence|].
  eapply (sw_incomp _ W); [exact H1|]. apply (IH i a c); [lia|exact Hi|exact Hc].
Qed.
(** *** uniqueness *)
Lemma sorted_perm_unique l : (forall a b, less a b = false -> less b a = false -> a = b) ->
  forall k, StronglySorted (fun a b => less b a = false) l -> StronglySorted (fun a b => less b a = false) k -> l ≡ₚ k -> l = k.
Proof.
  intros T. induction l as [|x l IH]; intros k Hl Hk P; [apply Permutation_nil in P; congruence|].
  destruct k as [|y k]; [apply Permutation_sym, Permutation_nil in P; discriminate|].
  assert (x = y).
  { inversion Hl as [|? ? Hl1 Hl2]; inversion Hk as [|? ? Hk1 Hk2]; subst. rewrite List.Forall_forall in Hl2, Hk2.
    assert (In y (x :: l)) as [?|Hy] by (eapply Permutation_in; [apply Permutation_sym; exact P|left; reflexivity]); [assumption|].
    assert (In x (y :: k)) as [?|Hx] by (eapply Permutation_in; [exact P|left; reflexivity]); [congruence|].
    apply T; [apply Hk2; exact Hx|apply Hl2; exact Hy]. }
  subst y. f_equal. apply IH; [inversion Hl; assumption|inversion Hk; assumption|]. eapply Permutation_cons_inv; exact P.
Qed.
Lemma equiv_refl a : strict_weak less -> equivalent less a a = true.
Proof. intros W. unfold equivalent. rewrite (sw_irrefl _ W). reflexivity. Qed.
Lemma equiv_true a b : equivalent less a b = true <-> less a b = false /\ less b a = false.
Proof. unfold equivalent. destruct (less a b), (less b a); cbn; intuition congruence. Qed.
Lemma stable_unique l : strict_weak less ->
  forall k, StronglySorted (fun a b => less b a = false) l -> StronglySorted (fun a b => less b a = false) k -> l ≡ₚ k ->
  (forall a, List.filter (equivalent less a) l = List.filter (equivalent less a) k) -> l = k.
Proof.
  intros W. induction l as [|x l IH]; intros k Hl Hk P F; [apply Permutation_nil in P; congruence|].
  destruct k as [|y k]; [apply Permutation_sym, Permutation_nil in P; discriminate|].
  assert (E : equivalent less x y = true).
  { inversion Hl as [|? ? Hl1 Hl2]; inversion Hk as [|? ? Hk1 Hk2]; subst. rewrite List.Forall_forall in Hl2, Hk2.
    assert (In y (x :: l)) as [->|Hy] by (eapply Permutation_in; [apply Permutation_sym; exact P|left; reflexivity]); [apply equiv_refl; exact W|].
    assert (In x (y :: k)) as [->|Hx] by (eapply Permutation_in; [exact P|left; reflexivity]); [apply equiv_refl; exact W|].
    apply equiv_true. split; [apply Hk2; exact Hx|apply Hl2; exact Hy]. }
  assert (x = y).
  { pose proof (F x) as Fx. cbn [List.filter] in Fx. rewrite (equiv_refl x W), E in Fx. injection Fx as <- _. reflexivity. }
  subst y. f_equal. apply IH; [inversion Hl; assumption|inversion Hk; assumption|eapply Permutation_cons_inv; exact P|].
  intros a. pose proof (F a) as Fa. cbn [List.filter] in Fa. destruct (equivalent less a x); [injection Fa as Fa; exact Fa|exact Fa].
Qed.
(** *** insertion sort keeps the contract *)
Lemma insert1_perm a l : insert1 less a l ≡ₚ a :: l.
Proof. induction l as [|b l IH]; cbn [insert1]; [reflexivity|]. destruct (less b a); [|reflexivity]. rewrite IH. apply Permutation_swap. Qed.
Lemma isort_perm l : isort less l ≡ₚ l.
Proof. induction l as [|a l IH]; cbn [isort foldr]; [reflexivity|]. rewrite insert1_perm. f_equiv. exact IH. Qed.
Lemma insert1_sorted a l : strict_weak less -> StronglySorted (fun a b => less b a = false) l -> StronglySorted (fun a b => less b a = false) (insert1 less a l).
Proof.
  intros W. induction 1 as [|b l Hl IH Hb]; cbn [insert1]; [repeat constructor|]. destruct (less b a) eqn:E.
  - constructor; [exact IH|]. rewrite List.Forall_forall in *. intros c Hc. eapply Permutation_in in Hc; [|apply insert1_perm]. destruct Hc as [<-|Hc].
    + destruct (less a b) eqn:E'; [|reflexivity]. pose proof (sw_trans _ W _ _ _ E E') as T. rewrite (sw_irrefl _ W) in T. discriminate.
    + apply Hb. exact Hc.
  - constructor; [constructor; assumption|]. constructor; [exact E|]. rewrite List.Forall_forall in *. intros c Hc. eapply (sw_incomp _ W); [apply Hb; exact Hc|exact E].
Qed.
Lemma isort_sorted l : strict_weak less -> StronglySorted (fun a b => less b a = false) (isort less l).
Proof. intros W. induction l as [|a l IH]; cbn [isort foldr]; [constructor|]. apply insert1_sorted; [exact W|exact IH]. Qed.
Lemma insert1_stable x a l : strict_weak less -> List.filter (equivalent less x) (insert1 less a l) = List.filter (equivalent less x) (a :: l).
Proof.
  intros W. induction l as [|b l IH]; cbn [insert1]; [reflexivity|]. destruct (less b a) eqn:E; [|reflexivity].
  cbn [List.filter] in *. rewrite IH. destruct (equivalent less x a) eqn:Ea, (equivalent less x b) eqn:Eb; try reflexivity.
  apply equiv_true in Ea, Eb. rewrite (sw_incomp _ W b x a) in E by tauto. discriminate.
Qed.
Lemma isort_stable x l : strict_weak less -> List.filter (equivalent less x) (isort less l) = List.filter (equivalent less x) l.
Proof. intros W. induction l as [|a l IH]; cbn [isort foldr]; [reflexivity|]. fold (isort less l). rewrite (insert1_stable x a _ W). cbn [List.filter]. rewrite IH. reflexivity. Qed.
End sorted.
Lemma strict_weak_flip {A} (less : A -> A -> bool) : strict_weak less -> strict_weak (fun i j => less j i).
Proof. intros [W1 W2 W3]. constructor; [exact W1|intros a b c H1 H2; eapply W2; eassumption|intros a b c H1 H2; eapply W3; eassumption]. Qed.
Lemma sw_antisym {A} (less : A -> A -> bool) : strict_weak less -> forall a b, less a b = true -> less b a = false.
Proof. intros W a b H. destruct (less b a) eqn:E; [|reflexivity]. pose proof (sw_trans _ W _ _ _ H E) as T. rewrite (sw_irrefl _ W) in T. discriminate. Qed.
