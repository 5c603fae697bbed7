(** Properties of dsx/setx/bitsetx (C39, C40). *)
From Verif Require Import Base SeqSpec BitSetSpec BitSetModel BitSetProofs.

(** C39: every history of a zero BitSet of width [n] gives the results of the
    ideal set over {0..n-1}, and ends the same way. *)
Theorem bitset_is_set :
  forall (n : nat) (hist : list bop),
    let impl := run (b_step (Z.of_nat n)) 0%Z hist in
    let spec := run bitset_spec (replicate n false) hist in
    impl.1 = spec.1 /\ ended impl.2 = ended spec.2 /\
    (forall l, spec.2 = Ret l -> exists d, impl.2 = Ret d /\ (0 <= d < 2^Z.of_nat n)%Z /\
       length l = n /\ forall i, i < n -> l !! i = Some (Z.testbit d (Z.of_nat i))).
Proof.
  intros n hist. cbn zeta. destruct (b_history n 0%Z (replicate n false) hist (zero_rel n)) as [E1 E2].
  split; [exact E1|]. destruct (run bitset_spec (replicate n false) hist).2 as [l| |].
  - destruct E2 as (d & E & B & L & H). rewrite E. split; [reflexivity|]. intros l' E'. injection E' as <-. exists d. auto.
  - rewrite E2. split; [reflexivity|discriminate].
  - rewrite E2. split; [reflexivity|discriminate].
Qed.
Print Assumptions bitset_is_set.
(** the ideal set read back: membership after a Set, Clear or Toggle of valid indices *)
Theorem bitset_membership :
  forall (n : nat) (l : list bool) (is : list Z) (j : nat), length l = n -> Forall (fun i => 0 <= i)%Z is -> j < n ->
    (exists l1, bitset_spec l (BSet is) = Ret (l1, RUnit) /\
       l1 !! j = Some (if bool_decide (Z.of_nat j ∈ is) then true else default false (l !! j))) /\
    (exists l1, bitset_spec l (BClear is) = Ret (l1, RUnit) /\
       l1 !! j = Some (if bool_decide (Z.of_nat j ∈ is) then false else default false (l !! j))) /\
    (exists l1, bitset_spec l (BToggle is) = Ret (l1, RUnit) /\
       l1 !! j = Some (xorb (default false (l !! j)) (Nat.odd (length (filter (fun i => i = Z.of_nat j) is))))).
Proof.
  intros n l is j L HF Hj.
  assert (E0 : existsb (fun i => i <? 0)%Z is = false).
  { clear -HF. induction HF as [|i is Hi _ IH]; [reflexivity|]. cbn. rewrite IH. destruct (Z.ltb_spec i 0); [lia|reflexivity]. }
  cbn [bitset_spec]. rewrite E0.
  assert (C : forall b l, length l = n -> fold_left (upd (fun _ => b)) is l !! j = Some (if bool_decide (Z.of_nat j ∈ is) then b else default false (l !! j))).
  { intros b. clear L E0 l. induction HF as [|i is Hi HF IH]; intros l L; cbn [fold_left].
    - destruct (lookup_lt_is_Some_2 l j ltac:(lia)) as [x E]. rewrite E. case_bool_decide as H; [inversion H|reflexivity].
    - rewrite IH by (rewrite alter_length'; exact L). f_equal.
      destruct (lookup_lt_is_Some_2 l j ltac:(lia)) as [x E]. rewrite (upd_lookup _ _ _ _ _ Hi E), E. cbn.
      destruct (decide (Z.of_nat j ∈ is)) as [H1|H1].
      + rewrite !bool_decide_eq_true_2 by (try right; exact H1). reflexivity.
      + rewrite (bool_decide_eq_false_2 _ H1). destruct (decide (i = Z.of_nat j)) as [H2|H2].
        * rewrite !bool_decide_eq_true_2 by (subst; (reflexivity || left)). reflexivity.
        * rewrite !bool_decide_eq_false_2; [reflexivity| |exact H2]. intros H3. apply elem_of_cons in H3 as [H3|H3]; congruence. }
  split; [|split].
  - eexists. split; [reflexivity|]. apply C, L.
  - eexists. split; [reflexivity|]. apply C, L.
  - eexists. split; [reflexivity|]. clear E0 C. revert l L. induction HF as [|i is Hi HF IH]; intros l L; cbn [fold_left].
    + destruct (lookup_lt_is_Some_2 l j ltac:(lia)) as [x E]. rewrite E. cbn. rewrite xorb_false_r. reflexivity.
    + rewrite IH by (rewrite alter_length'; exact L). f_equal.
      destruct (lookup_lt_is_Some_2 l j ltac:(lia)) as [x E]. rewrite (upd_lookup _ _ _ _ _ Hi E), E. cbn [default from_option id].
      rewrite filter_cons. case_bool_decide as H; [rewrite decide_True by exact H|rewrite decide_False by exact H; reflexivity].
      cbn [length]. rewrite Nat.odd_succ, <- Nat.negb_odd. destruct x, (Nat.odd _); reflexivity.
Qed.
Print Assumptions bitset_membership.

(** C40: Test of several indices: at least one is a member. *)
Theorem bitset_test_any :
  forall (n : nat) (d : Z) (is : list Z), (0 <= d < 2^Z.of_nat n)%Z -> Forall (fun i => 0 <= i)%Z is ->
    exists b, b_test (Z.of_nat n) d is = Ret b /\
      (b = true <-> exists i, i ∈ is /\ (i < Z.of_nat n)%Z /\ Z.testbit d i = true).
Proof.
  intros n d is B HF. unfold b_test. induction HF as [|i is Hi HF IH].
  - exists false. split; [reflexivity|]. split; [discriminate|]. intros (i & H & _). inversion H.
  - cbn [b_test_loop]. unfold shl1. destruct (Z.ltb_spec i 0); [lia|]. cbn [rbind]. rewrite (test_bit n) by assumption.
    destruct (Z.testbit d i) eqn:T.
    + rewrite test_true. exists true. split; [reflexivity|]. split; [|reflexivity]. intros _. exists i. split; [left|]. split; [|exact T].
      destruct (Z.lt_ge_cases i (Z.of_nat n)); [assumption|]. rewrite (high_bits n) in T by assumption. discriminate.
    + destruct IH as (b & E & Hb). exists b. split; [exact E|]. rewrite Hb. split; intros (k & H1 & H2).
      * exists k. split; [right; exact H1|exact H2].
      * apply elem_of_cons in H1 as [->|H1]; [|exists k; auto]. destruct H2. congruence.
Qed.
Print Assumptions bitset_test_any.
(** with negative indices too: the first index that is a member, or negative, decides *)
Theorem bitset_test_exact :
  forall (n : nat) (d : Z) (is : list Z), (0 <= d < 2^Z.of_nat n)%Z ->
    let dull i := (0 <= i /\ Z.testbit d i = false)%Z in
    (Forall dull is /\ b_test (Z.of_nat n) d is = Ret false) \/
    exists pre i post, is = pre ++ i :: post /\ Forall dull pre /\
      ((i < 0)%Z /\ b_test (Z.of_nat n) d is = Panic \/ (0 <= i < Z.of_nat n)%Z /\ Z.testbit d i = true /\ b_test (Z.of_nat n) d is = Ret true).
Proof.
  intros n d is B. cbn zeta. unfold b_test. induction is as [|i is IH]; [left; split; [constructor|reflexivity]|].
  cbn [b_test_loop]. unfold shl1. destruct (Z.ltb_spec i 0) as [Hi|Hi]; cbn [rbind].
  - right. exists [], i, is. split; [reflexivity|]. split; [constructor|]. left. split; [exact Hi|reflexivity].
  - rewrite (test_bit n) by assumption. destruct (Z.testbit d i) eqn:T.
    + right. exists [], i, is. split; [reflexivity|]. split; [constructor|]. right. rewrite test_true. split; [|split; [exact T|reflexivity]].
      split; [exact Hi|]. destruct (Z.lt_ge_cases i (Z.of_nat n)); [assumption|]. rewrite (high_bits n) in T by assumption. discriminate.
    + destruct IH as [[F E]|(pre & k & post & E & F & R)].
      * left. split; [constructor; [split; [exact Hi|exact T]|exact F]|exact E].
      * right. exists (i :: pre), k, post. split; [rewrite E; reflexivity|]. split; [constructor; [split; [exact Hi|exact T]|exact F]|exact R].
Qed.
Print Assumptions bitset_test_exact.

Example bitset_case :
  run (b_step 8) 0%Z [BIsEmpty; BSet [1; 3; 7; 8; 200]%Z; BTest [3]%Z; BTest [8]%Z; BTest [0; 2; 7]%Z; BTest []; BToggle [3; 3; 3; 0]%Z; BTest [3]%Z;
                      BClear [7; 64]%Z; BToggleAll; BTest [7]%Z; BTest [7; -1]%Z; BSetAll; BIsFull; BClear [-1]%Z]
  = ([RBool true; RUnit; RBool true; RBool false; RBool true; RBool false; RUnit; RBool false; RUnit; RUnit; RBool true; RBool true; RUnit; RBool true], Panic).
Proof. reflexivity. Qed.
Example bitset_test_any_case : (0 <= 138 < 2^Z.of_nat 8)%Z /\ Forall (fun i => 0 <= i)%Z [0; 9; 7]%Z /\ b_test 8 138 [0; 9; 7]%Z = Ret true.
Proof. split; [lia|]. split; [repeat constructor; lia|reflexivity]. Qed.
Example bitset_test_exact_case : (0 <= 138 < 2^Z.of_nat 8)%Z /\ b_test 8 138 [0; 7; -1]%Z = Ret true /\ b_test 8 138 [0; -1; 7]%Z = Panic /\ b_test 8 138 [0; 9]%Z = Ret false.
Proof. split; [lia|]. split; [reflexivity|]. split; reflexivity. Qed.
Example bitset_membership_case := bitset_membership 4 [true; false; true; false] [3; 2; 2; 9]%Z 2 eq_refl ltac:(repeat constructor; discriminate) ltac:(lia).
