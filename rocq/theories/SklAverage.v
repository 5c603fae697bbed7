(** The average cost of a search, if the tosses were independent and fair (C123). *)
From Verif Require Import Base SklLevelModel SplitMixModel SplitMixProofs SplitMixProps SklProps SklLevelProps.
Local Open Scope Z_scope.

(** all outcomes of m tosses, and of m tosses for each of n keys *)
Fixpoint bools (m : nat) : list (list bool) := match m with O => [[]] | S m' => (cons true <$> bools m') ++ (cons false <$> bools m') end.
Fixpoint lists_of {A} (l : list A) (n : nat) : list (list A) := match n with O => [[]] | S n' => x ← l; cons x <$> lists_of l n' end.
Definition outcomes (n : nat) : list (list (list bool)) := lists_of (bools 15) n.
(** the height 15 tosses give *)
Definition ht (b : list bool) : nat := S (leading b).
Definition total {A} (f : A -> Z) (l : list A) : Z := foldr (fun x t => f x + t) 0 l.

Lemma total_cons {A} (f : A -> Z) x l : total f (x :: l) = f x + total f l.
Proof. reflexivity. Qed.
Lemma total_app {A} (f : A -> Z) l l' : total f (l ++ l') = total f l + total f l'.
Proof. unfold total. induction l as [|x l IH]; cbn; [reflexivity|]. rewrite IH. lia. Qed.
Lemma total_fmap {A B} (f : B -> Z) (g : A -> B) l : total f (g <$> l) = total (fun x => f (g x)) l.
Proof. unfold total. induction l as [|x l IH]; cbn; [reflexivity|]. rewrite IH. reflexivity. Qed.
Lemma total_ext {A} (f g : A -> Z) l : (forall x, x ∈ l -> f x = g x) -> total f l = total g l.
Proof. unfold total. induction l as [|x l IH]; intros H; cbn; [reflexivity|]. rewrite IH, (H x) by (intros; try apply H; constructor; assumption). reflexivity. Qed.
Lemma total_plus {A} (f g : A -> Z) l : total (fun x => f x + g x) l = total f l + total g l.
Proof. unfold total. induction l as [|x l IH]; cbn; [reflexivity|]. rewrite IH. lia. Qed.
Lemma total_mul {A} (f : A -> Z) c l : total (fun x => c * f x) l = c * total f l.
Proof. unfold total. induction l as [|x l IH]; cbn; [lia|]. rewrite IH. lia. Qed.
Lemma total_le {A} (f g : A -> Z) l : (forall x, x ∈ l -> f x <= g x) -> total f l <= total g l.
Proof. unfold total. induction l as [|x l IH]; intros H; cbn; [lia|]. pose proof (H x ltac:(constructor)). assert (total f l <= total g l) by (apply IH; intros; apply H; constructor; assumption). unfold total in *. lia. Qed.
Lemma total_const {A} (c : Z) (l : list A) : total (fun _ => c) l = c * Z.of_nat (length l).
Proof. unfold total. induction l as [|x l IH]; cbn [foldr length]; [lia|]. rewrite IH. lia. Qed.
Lemma total_bind {A B} (f : B -> Z) (g : A -> list B) l : total f (l ≫= g) = total (fun x => total f (g x)) l.
Proof. induction l as [|x l IH]; [reflexivity|]. rewrite bind_cons, total_app, IH. reflexivity. Qed.
Lemma total_swap {A B} (f : A -> B -> Z) l l' : total (fun x => total (f x) l') l = total (fun y => total (fun x => f x y) l) l'.
Proof.
  induction l as [|x l IH]; [change (0 = total (fun _ : B => 0) l'); rewrite total_const; lia|]. rewrite total_cons, IH, <- total_plus. reflexivity.
Qed.
Lemma bools_length m : Z.of_nat (length (bools m)) = 2^(Z.of_nat m).
Proof. induction m as [|m IH]; [reflexivity|]. cbn [bools]. rewrite app_length, !fmap_length, Nat2Z.inj_add, IH, Nat2Z.inj_succ, Z.pow_succ_r by lia. lia. Qed.
Lemma lists_length {A} (l : list A) n : Z.of_nat (length (lists_of l n)) = (Z.of_nat (length l))^(Z.of_nat n).
Proof.
  induction n as [|n IH]; [reflexivity|]. rewrite Nat2Z.inj_succ, Z.pow_succ_r by lia. rewrite <- IH. cbn [lists_of]. generalize (lists_of l n) as L. clear. intros L. induction l as [|x l IH]; [reflexivity|].
  rewrite bind_cons, app_length, fmap_length. cbn [length]. lia.
Qed.
Lemma outcomes_length n : Z.of_nat (length (outcomes n)) = (2^15)^(Z.of_nat n).
Proof. unfold outcomes. rewrite lists_length, bools_length. reflexivity. Qed.

(** how many of the 2^m outcomes have height at most h *)
Definition upto_h (m h : nat) : Z := total (fun b => if (ht b <=? h)%nat then 1 else 0) (bools m).
Lemma upto_h_eq m h : (1 <= h)%nat -> upto_h m h = if (m <? h)%nat then 2^(Z.of_nat m) else 2^(Z.of_nat m) - 2^(Z.of_nat (m - h)).
Proof.
  unfold upto_h. revert h. induction m as [|m IH]; intros h Hh.
  - destruct h as [|h]; [lia|]. reflexivity.
  - cbn [bools]. rewrite total_app, !total_fmap.
    rewrite (total_ext (fun b => if (ht (true :: b) <=? h)%nat then 1 else 0) (fun _ => 1)) by (intros b _; destruct h; [lia|reflexivity]).
    rewrite total_const, bools_length. destruct h as [|h]; [lia|]. destruct h as [|h].
    + rewrite (total_ext _ (fun _ => 0)) by (intros; reflexivity). rewrite total_const. change (S m <? 1)%nat with false. cbv iota. rewrite Nat2Z.inj_succ, Z.pow_succ_r by lia. replace (S m - 1)%nat with m by lia. lia.
    + rewrite (total_ext _ (fun b => if (ht b <=? S h)%nat then 1 else 0)) by (intros; reflexivity). rewrite IH by lia. change (S m <? S (S h))%nat with (m <? S h)%nat. rewrite Nat2Z.inj_succ, Z.pow_succ_r by lia. change (S m - S (S h))%nat with (m - S h)%nat. destruct (m <? S h)%nat; lia.
Qed.
(** outcomes in which no key is higher than h *)
Lemma all_upto n h : total (fun o => if forallb (fun x => x <=? h)%nat (ht <$> o) then 1 else 0) (outcomes n) = (upto_h 15 h)^(Z.of_nat n).
Proof.
  induction n as [|n IH]; [reflexivity|]. rewrite Nat2Z.inj_succ, Z.pow_succ_r by lia. unfold outcomes in *. cbn [lists_of]. rewrite total_bind.
  rewrite (total_ext _ (fun b => total (fun o => if forallb (fun x => x <=? h)%nat (ht <$> o) then 1 else 0) (lists_of (bools 15) n) * (if (ht b <=? h)%nat then 1 else 0))).
  - rewrite total_mul, IH. apply Z.mul_comm.
  - intros b _. rewrite total_fmap. destruct (ht b <=? h)%nat eqn:E.
    + rewrite Z.mul_1_r. apply total_ext. intros o _. rewrite fmap_cons. cbn [forallb]. rewrite E. reflexivity.
    + rewrite (total_ext _ (fun _ => 0)) by (intros o _; rewrite fmap_cons; cbn [forallb]; rewrite E; reflexivity). rewrite total_const. lia.
Qed.
(** as a sum over the heights *)
Lemma by_height (g : nat -> Z) m : total (fun b => g (ht b)) (bools m) = total (fun h => 2^(Z.of_nat (m - h)) * g h) (seq 1 m) + g (S m).
Proof.
  revert g. induction m as [|m IH]; intros g; [change (g 1%nat + 0 = 0 + g 1%nat); lia|]. cbn [bools]. rewrite total_app, !total_fmap.
  rewrite (total_ext (fun x => g (ht (true :: x))) (fun _ => g 1%nat)) by (intros; reflexivity). rewrite total_const, bools_length.
  rewrite (total_ext (fun x => g (ht (false :: x))) (fun b => (fun h => g (S h)) (ht b))) by (intros; reflexivity). rewrite (IH (fun h => g (S h))).
  cbn [seq]. rewrite total_cons. rewrite <- (fmap_S_seq 1 m), total_fmap. cbn [Nat.sub]. rewrite Nat.sub_0_r. lia.
Qed.
Notation W := (2^15).
Definition C (h : nat) : Z := W - 2^(Z.of_nat (15 - h)).
(** the sum over all outcomes of the number of records *)
Theorem records_total n : total (fun o => Z.of_nat (records (ht <$> o))) (outcomes n) =
  total (fun h => W^(Z.of_nat n) - C h^(Z.of_nat n)) (seq 1 15) + Z.of_nat n * W^(Z.of_nat n - 1).
Proof.
  induction n as [|n IH]; [reflexivity|].
  assert (E : total (fun o => Z.of_nat (records (ht <$> o))) (outcomes (S n)) =
    total (fun h => 2^(Z.of_nat (15 - h)) * C h^(Z.of_nat n)) (seq 1 15) + W^(Z.of_nat n) + W * total (fun o => Z.of_nat (records (ht <$> o))) (outcomes n)).
  { unfold outcomes at 1. cbn [lists_of]. rewrite total_bind. fold (outcomes n).
    rewrite (total_ext _ (fun b => upto_h 15 (ht b)^(Z.of_nat n) + total (fun o => Z.of_nat (records (ht <$> o))) (outcomes n))).
    - rewrite total_plus, total_const, bools_length. rewrite (by_height (fun h => upto_h 15 h^(Z.of_nat n)) 15). rewrite (upto_h_eq 15 16) by lia. change (15 <? 16)%nat with true. cbv iota. change (Z.of_nat 15) with 15.
      rewrite (total_ext (fun h => 2^Z.of_nat (15 - h) * upto_h 15 h^Z.of_nat n) (fun h => 2^(Z.of_nat (15 - h)) * C h^(Z.of_nat n))); [lia|].
      intros h Hh. apply elem_of_seq in Hh. rewrite upto_h_eq by lia. destruct (Nat.ltb_spec 15 h); [lia|]. reflexivity.
    - intros b _. rewrite total_fmap, <- all_upto, <- total_plus. apply total_ext. intros o _. rewrite fmap_cons. cbn [records]. destruct (forallb _ _); lia. }
  rewrite E, IH. clear E IH. rewrite Nat2Z.inj_succ. replace (Z.succ (Z.of_nat n) - 1) with (Z.of_nat n) by lia.
  assert (E2 : W * (Z.of_nat n * W^(Z.of_nat n - 1)) = Z.of_nat n * W^(Z.of_nat n)).
  { destruct n as [|n]; [reflexivity|]. replace (W^(Z.of_nat (S n))) with (W * W^(Z.of_nat (S n) - 1)) by (rewrite <- Z.pow_succ_r by lia; f_equal; lia). lia. }
  rewrite Z.mul_add_distr_l, E2, <- total_mul. rewrite (Z.add_comm (total _ _) (W^Z.of_nat n)), <- Z.add_assoc, (Z.add_assoc (total _ _)), <- total_plus.
  rewrite (total_ext _ (fun h => W^(Z.succ (Z.of_nat n)) - C h^(Z.succ (Z.of_nat n)))); [lia|]. intros h _. rewrite !Z.pow_succ_r by lia. unfold C. lia.
Qed.
(** ... and of the greatest height *)
Lemma max_sum (l : list nat) k : Forall (fun h => h <= k)%nat l -> Z.of_nat (foldr Nat.max 0%nat l) = total (fun i => 1 - (if forallb (fun x => x <=? i)%nat l then 1 else 0)) (seq 0 k).
Proof.
  intros H. assert (Q : forall i, forallb (fun x => x <=? i)%nat l = (foldr Nat.max 0%nat l <=? i)%nat).
  { intros i. clear. induction l as [|x l IH]; [reflexivity|]. cbn [forallb foldr]. rewrite IH. destruct (Nat.leb_spec x i), (Nat.leb_spec (foldr Nat.max 0%nat l) i), (Nat.leb_spec (Nat.max x (foldr Nat.max 0%nat l)) i); try reflexivity; lia. }
  assert (B : (foldr Nat.max 0%nat l <= k)%nat) by (clear Q; induction H; cbn [foldr]; lia).
  rewrite (total_ext _ (fun i => if (foldr Nat.max 0%nat l <=? i)%nat then 0 else 1)) by (intros i _; rewrite Q; destruct (_ <=? i)%nat; reflexivity). clear Q H.
  assert (G : forall j, total (fun i => if (foldr Nat.max 0%nat l <=? i)%nat then 0 else 1) (seq 0 j) = Z.of_nat (Nat.min j (foldr Nat.max 0%nat l))).
  { induction j as [|j IH]; [reflexivity|]. rewrite seq_S, total_app, IH. rewrite total_cons. change (total _ []) with 0. cbn [Nat.add]. destruct (Nat.leb_spec (foldr Nat.max 0%nat l) j); lia. }
  rewrite G. lia.
Qed.
Lemma bools_bound m b : b ∈ bools m -> (leading b <= m)%nat.
Proof.
  revert b. induction m as [|m IH]; intros b; cbn [bools]; [rewrite elem_of_list_singleton; intros ->; cbn; lia|]. rewrite elem_of_app, !elem_of_list_fmap.
  intros [(b' & -> & H)|(b' & -> & H)]; cbn [leading]; [lia|]. apply IH in H. lia.
Qed.
Lemma lists_elem {A} (l : list A) n o : o ∈ lists_of l n -> Forall (fun x => x ∈ l) o /\ length o = n.
Proof.
  revert o. induction n as [|n IH]; intros o; cbn [lists_of]; [rewrite elem_of_list_singleton; intros ->; split; [constructor|reflexivity]|].
  rewrite elem_of_list_bind. intros (x & Hx & Hl). apply elem_of_list_fmap in Hx as (o' & -> & Ho). apply IH in Ho as [Ho <-]. split; [constructor; assumption|reflexivity].
Qed.
Theorem max_total n : total (fun o => Z.of_nat (foldr Nat.max 0%nat (ht <$> o))) (outcomes n) =
  total (fun i => W^(Z.of_nat n) - (if decide (i = 0%nat) then 0^(Z.of_nat n) else C i^(Z.of_nat n))) (seq 0 16).
Proof.
  rewrite (total_ext _ (fun o => total (fun i => 1 - (if forallb (fun x => x <=? i)%nat (ht <$> o) then 1 else 0)) (seq 0 16))).
  - rewrite total_swap. apply total_ext. intros i Hi. apply elem_of_seq in Hi.
    rewrite (total_ext _ (fun o => 1 + (-1) * (if forallb (fun x => x <=? i)%nat (ht <$> o) then 1 else 0))) by (intros; lia). rewrite total_plus, total_mul, all_upto, total_const, outcomes_length.
    destruct (decide (i = 0%nat)) as [->|Hn].
    + assert (E : upto_h 15 0 = 0); [|rewrite E; lia]. unfold upto_h. rewrite (total_ext _ (fun _ => 0)) by (intros; reflexivity). rewrite total_const. lia.
    + rewrite upto_h_eq by lia. destruct (Nat.ltb_spec 15 i); [lia|]. unfold C. change (Z.of_nat 15) with 15. lia.
  - intros o Ho. apply max_sum. apply lists_elem in Ho as [Ho _]. rewrite Forall_fmap. eapply Forall_impl; [exact Ho|]. intros b Hb. apply bools_bound in Hb. cbn. unfold ht. lia.
Qed.
Lemma bernoulli n w : 0 <= w <= W -> W^(Z.of_nat n) - (W - w)^(Z.of_nat n) <= Z.of_nat n * (w * W^(Z.of_nat n - 1)).
Proof.
  intros Hw. induction n as [|n IH]; [cbn; lia|]. rewrite Nat2Z.inj_succ. replace (Z.succ (Z.of_nat n) - 1) with (Z.of_nat n) by lia. rewrite !Z.pow_succ_r by lia.
  assert (E : W * (Z.of_nat n * (w * W^(Z.of_nat n - 1))) = Z.of_nat n * (w * W^(Z.of_nat n))).
  { destruct n as [|n]; [reflexivity|]. replace (W^(Z.of_nat (S n))) with (W * W^(Z.of_nat (S n) - 1)) by (rewrite <- Z.pow_succ_r by lia; f_equal; lia). ring. }
  assert (M : (W - w)^(Z.of_nat n) <= W^(Z.of_nat n)) by (apply Z.pow_le_mono_l; lia).
  assert (0 <= (W - w)^(Z.of_nat n)) by (apply Z.pow_nonneg; lia).
  assert (W * (W^(Z.of_nat n) - (W - w)^(Z.of_nat n)) <= Z.of_nat n * (w * W^(Z.of_nat n))) by (rewrite <- E; apply Z.mul_le_mono_nonneg_l; lia).
  assert (w * (W - w)^(Z.of_nat n) <= w * W^(Z.of_nat n)) by (apply Z.mul_le_mono_nonneg_l; lia).
  replace (Z.succ (Z.of_nat n) * (w * W^(Z.of_nat n))) with (Z.of_nat n * (w * W^(Z.of_nat n)) + w * W^(Z.of_nat n)) by ring.
  replace ((W - w) * (W - w)^(Z.of_nat n)) with (W * (W - w)^(Z.of_nat n) - w * (W - w)^(Z.of_nat n)) by ring. lia.
Qed.
Lemma levels_bound n k : Z.of_nat n <= 2^(Z.of_nat k) -> total (fun h => W^(Z.of_nat n) - C h^(Z.of_nat n)) (seq 1 15) <= (Z.of_nat k + 1) * W^(Z.of_nat n).
Proof.
  intros Hk. assert (HW : 0 < W^(Z.of_nat n)) by (apply Z.pow_pos_nonneg; lia).
  assert (HC : forall h, h ∈ seq 1 15 -> 0 <= C h <= W).
  { intros h Hh. apply elem_of_seq in Hh. unfold C. assert (2^(Z.of_nat (15 - h)) <= 2^15) by (apply Z.pow_le_mono_r; lia). assert (0 < 2^(Z.of_nat (15 - h))) by (apply Z.pow_pos_nonneg; lia). lia. }
  assert (A : forall h, h ∈ seq 1 15 -> W^(Z.of_nat n) - C h^(Z.of_nat n) <= W^(Z.of_nat n)).
  { intros h Hh. pose proof (Z.pow_nonneg (C h) (Z.of_nat n) (proj1 (HC h Hh))). lia. }
  destruct (decide (15 <= k)%nat) as [L|L].
  - etransitivity; [apply (total_le _ (fun _ => W^(Z.of_nat n))); exact A|]. rewrite total_const. change (Z.of_nat (length (seq 1 15))) with 15. rewrite Z.mul_comm. apply Z.mul_le_mono_nonneg_r; lia.
  - set (B := Z.of_nat n * W^(Z.of_nat n - 1)). assert (HB : 0 <= B) by (apply Z.mul_nonneg_nonneg; [lia|apply Z.pow_nonneg; lia]).
    etransitivity; [apply (total_le _ (fun h => if (h <=? k)%nat then W^(Z.of_nat n) else 2^(Z.of_nat (15 - h)) * B))|].
    + intros h Hh. destruct (h <=? k)%nat; [apply A; exact Hh|]. pose proof (bernoulli n (2^(Z.of_nat (15 - h)))) as Q. fold (C h) in Q. specialize (HC h Hh). unfold C in HC. specialize (Q ltac:(lia)). unfold B. lia.
    + assert (E : total (fun h => if (h <=? k)%nat then W^(Z.of_nat n) else 2^(Z.of_nat (15 - h)) * B) (seq 1 15) = Z.of_nat k * W^(Z.of_nat n) + (2^(Z.of_nat (15 - k)) - 1) * B).
      { revert L. generalize (W^(Z.of_nat n)) B. clear. intros X B L. do 15 (destruct k as [|k]; [cbn -[Z.mul Z.add Z.sub]; lia|]). lia. }
      rewrite E. assert (HB2 : 2^(Z.of_nat (15 - k)) * B <= W^(Z.of_nat n)); [|lia].
      unfold B. destruct n as [|n]; [cbn [Z.of_nat]; lia|]. replace (W^(Z.of_nat (S n))) with (W * W^(Z.of_nat (S n) - 1)) by (rewrite <- Z.pow_succ_r by lia; f_equal; lia).
      rewrite Z.mul_assoc. apply Z.mul_le_mono_nonneg_r; [apply Z.pow_nonneg; lia|].
      replace W with (2^(Z.of_nat (15 - k)) * 2^(Z.of_nat k)) by (rewrite <- Z.pow_add_r by lia; f_equal; lia). apply Z.mul_le_mono_nonneg_l; [apply Z.pow_nonneg; lia|exact Hk].
Qed.
(** C123: over all outcomes of the tosses of n1 smaller and n2 other keys, both at
    most 2^k, a search makes at most 2k + 3 + n1/32768 comparisons on average *)
Definition search_cost_of (small rest : list (list bool)) : nat := (records (ht <$> small) + foldr Nat.max 0 (ht <$> rest))%nat.
Theorem search_cost_average_partial n1 n2 k : Z.of_nat n1 <= 2^(Z.of_nat k) -> Z.of_nat n2 <= 2^(Z.of_nat k) ->
  W * total (fun o1 => total (fun o2 => Z.of_nat (search_cost_of o1 o2)) (outcomes n2)) (outcomes n1) <=
  (W * (2 * Z.of_nat k + 3) + Z.of_nat n1) * (Z.of_nat (length (outcomes n1)) * Z.of_nat (length (outcomes n2))).
Proof.
  intros H1 H2. rewrite !outcomes_length. set (X1 := W^(Z.of_nat n1)). set (X2 := W^(Z.of_nat n2)).
  assert (P1 : 0 < X1) by (apply Z.pow_pos_nonneg; lia). assert (P2 : 0 < X2) by (apply Z.pow_pos_nonneg; lia).
  set (T1 := total (fun o => Z.of_nat (records (ht <$> o))) (outcomes n1)). set (T2 := total (fun o => Z.of_nat (foldr Nat.max 0%nat (ht <$> o))) (outcomes n2)).
  assert (E : total (fun o1 => total (fun o2 => Z.of_nat (search_cost_of o1 o2)) (outcomes n2)) (outcomes n1) = X2 * T1 + T2 * X1).
  { rewrite (total_ext _ (fun o1 => X2 * Z.of_nat (records (ht <$> o1)) + T2)).
    - rewrite total_plus, total_mul, total_const, outcomes_length. reflexivity.
    - intros o1 _. unfold search_cost_of. rewrite (total_ext _ (fun o2 => Z.of_nat (records (ht <$> o1)) + Z.of_nat (foldr Nat.max 0%nat (ht <$> o2)))) by (intros; lia).
      rewrite total_plus, total_const, outcomes_length. fold T2 X2. lia. }
  rewrite E. assert (B1 : W * T1 <= (W * (Z.of_nat k + 1) + Z.of_nat n1) * X1).
  { unfold T1. rewrite records_total. pose proof (levels_bound n1 k H1) as B. fold X1 in B. fold X1.
    assert (E2 : W * (Z.of_nat n1 * W^(Z.of_nat n1 - 1)) = Z.of_nat n1 * X1).
    { unfold X1. destruct n1 as [|n]; [reflexivity|]. replace (W^(Z.of_nat (S n))) with (W * W^(Z.of_nat (S n) - 1)) by (rewrite <- Z.pow_succ_r by lia; f_equal; lia). ring. }
    rewrite Z.mul_add_distr_l, E2. rewrite Z.mul_add_distr_r, <- Z.mul_assoc. lia. }
  assert (B2 : T2 <= (Z.of_nat k + 2) * X2).
  { unfold T2. rewrite max_total. pose proof (levels_bound n2 k H2) as B. fold X2 in B. fold X2. change (seq 0 16) with (0%nat :: seq 1 15). rewrite total_cons, decide_True by reflexivity.
    rewrite (total_ext _ (fun h => X2 - C h^(Z.of_nat n2)) (seq 1 15)) by (intros h Hh; apply elem_of_seq in Hh; rewrite decide_False by lia; reflexivity).
    pose proof (Z.pow_nonneg 0 (Z.of_nat n2) ltac:(lia)). lia. }
  assert (B1' : X2 * (W * T1) <= X2 * ((W * (Z.of_nat k + 1) + Z.of_nat n1) * X1)) by (apply Z.mul_le_mono_nonneg_l; lia).
  assert (B2' : W * X1 * T2 <= W * X1 * ((Z.of_nat k + 2) * X2)) by (apply Z.mul_le_mono_nonneg_l; lia).
  replace (W * (X2 * T1 + T2 * X1)) with (X2 * (W * T1) + W * X1 * T2) by ring.
  replace ((W * (2 * Z.of_nat k + 3) + Z.of_nat n1) * (X1 * X2)) with (X2 * ((W * (Z.of_nat k + 1) + Z.of_nat n1) * X1) + W * X1 * ((Z.of_nat k + 2) * X2)) by ring. lia.
Qed.
(** the linear part is there: with 16 levels the average is not logarithmic *)
Theorem search_cost_average_refuted n1 n2 :
  Z.of_nat n1 * (Z.of_nat (length (outcomes n1)) * Z.of_nat (length (outcomes n2))) <=
  W * total (fun o1 => total (fun o2 => Z.of_nat (search_cost_of o1 o2)) (outcomes n2)) (outcomes n1).
Proof.
  assert (HC : forall h, h ∈ seq 1 15 -> 0 <= W^(Z.of_nat n1) - C h^(Z.of_nat n1)).
  { intros h Hh. apply elem_of_seq in Hh. unfold C. assert (2^(Z.of_nat (15 - h)) <= 2^15) by (apply Z.pow_le_mono_r; lia). assert (0 < 2^(Z.of_nat (15 - h))) by (apply Z.pow_pos_nonneg; lia).
    assert ((W - 2^(Z.of_nat (15 - h)))^(Z.of_nat n1) <= W^(Z.of_nat n1)) by (apply Z.pow_le_mono_l; lia). lia. }
  assert (L : total (fun o1 => Z.of_nat (length (outcomes n2)) * Z.of_nat (records (ht <$> o1))) (outcomes n1) <= total (fun o1 => total (fun o2 => Z.of_nat (search_cost_of o1 o2)) (outcomes n2)) (outcomes n1)).
  { apply total_le. intros o1 _. rewrite Z.mul_comm, <- total_const. apply total_le. intros o2 _. unfold search_cost_of. lia. }
  rewrite total_mul, records_total in L.
  assert (0 <= total (fun h => W^(Z.of_nat n1) - C h^(Z.of_nat n1)) (seq 1 15)) by (rewrite <- (Z.mul_0_l (Z.of_nat (length (seq 1 15)))), <- total_const; apply total_le; exact HC).
  assert (E2 : W * (Z.of_nat n1 * W^(Z.of_nat n1 - 1)) = Z.of_nat n1 * W^(Z.of_nat n1)).
  { destruct n1 as [|n]; [reflexivity|]. replace (W^(Z.of_nat (S n))) with (W * W^(Z.of_nat (S n) - 1)) by (rewrite <- Z.pow_succ_r by lia; f_equal; lia). ring. }
  rewrite (outcomes_length n1). set (X2 := Z.of_nat (length (outcomes n2))) in *. assert (0 <= X2) by lia.
  assert (M : X2 * (Z.of_nat n1 * W^(Z.of_nat n1 - 1)) <= X2 * (total (fun h => W^(Z.of_nat n1) - C h^(Z.of_nat n1)) (seq 1 15) + Z.of_nat n1 * W^(Z.of_nat n1 - 1))) by (apply Z.mul_le_mono_nonneg_l; lia).
  replace (Z.of_nat n1 * (W^(Z.of_nat n1) * X2)) with (X2 * (Z.of_nat n1 * W^(Z.of_nat n1))) by ring. rewrite <- E2.
  replace (X2 * (W * (Z.of_nat n1 * W^(Z.of_nat n1 - 1)))) with (W * (X2 * (Z.of_nat n1 * W^(Z.of_nat n1 - 1)))) by ring. apply Z.mul_le_mono_nonneg_l; lia.
Qed.
(** the heights meant here are those of the generator, for the tosses it makes *)
Theorem ht_tosses seed : is_u64 seed -> (rand_height seed).2 = ht (toss seed <$> seq 1 15).
Proof. intros H. rewrite toss_draw_eq by exact H. reflexivity. Qed.
Print Assumptions records_total.
Print Assumptions max_total.
Print Assumptions search_cost_average_partial.
Print Assumptions search_cost_average_refuted.
Print Assumptions ht_tosses.
(** 1000 smaller and 1000 other keys: at most 23.03 comparisons on average *)
Example average_ex : Z.of_nat 1000 <= 2^(Z.of_nat 10) /\ (W * (2 * 10 + 3) + 1000) * 100 <= 2304 * W.
Proof. split; vm_compute; discriminate. Qed.
