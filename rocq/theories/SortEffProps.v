(** C165: Sort, SortCustom and SortStableCustom with any comparison at all.
    C166: how many comparisons they make. *)
From Verif Require Import Base SortModel PdqModel PdqProofs PdqStable SortEffModel SortEffProofs SortEffSim SortCostProofs.

(** what became of a sort of s with comparison less: if it came back, the slice is a permutation
    of s; if it did not, that is because the comparison panicked (or did not return) in its last
    call, made on two elements of s, and then too the slice is a permutation of s *)
Definition sorts {A} (less : nat -> A -> A -> res bool) (s : list A) (bound : nat) (o : eout A unit) : Prop :=
  match o with
  | EVal _ c s' => s' ≡ₚ s /\ (c <= bound)%nat
  | EPanic c s' => s' ≡ₚ s /\ exists k x y, c = S k /\ x ∈ s /\ y ∈ s /\ less k x y = Panic
  | ESpin c s' => s' ≡ₚ s /\ exists k x y, c = S k /\ x ∈ s /\ y ∈ s /\ less k x y = Spin
  end.
Lemma sorts_of {A} (less : nat -> A -> A -> res bool) s bound (m : M A unit) : ok less m 0 s (fun _ n => (n <= bound)%nat) -> sorts less s bound (m 0%nat s).
Proof.
  unfold ok, sorts, ended. destruct (m 0%nat s) as [x c s'|c s'|c s'].
  - intros (P & _ & H). rewrite Nat.sub_0_r in H. auto.
  - intros (P & L & x & y & X & Y & H). split; [exact P|]. exists (c - 1)%nat, x, y. split; [lia|auto].
  - intros (P & L & x & y & X & Y & H). split; [exact P|]. exists (c - 1)%nat, x, y. split; [lia|auto].
Qed.
Theorem sort_any_comparison {A} (less : nat -> A -> A -> res bool) next s : sorts less s (13 * length s * length s) (SortEffModel.sort_func less next 0%nat s).
Proof. apply sorts_of, sort_func_ok. Qed.
Lemma log_bits n : (1 <= n)%nat -> (bits_len n <= Nat.log2 n + 1)%nat.
Proof.
  intros H. pose proof (bits_len_half n H) as B. apply Nat.log2_le_pow2 in B; [|lia]. rewrite Nat.log2_double in B by lia. lia.
Qed.
Theorem sort_stable_any_comparison {A} (less : nat -> A -> A -> res bool) s : sorts less s (length s * (24 + 4 * Nat.log2 (length s))) (SortEffModel.sort_stable_func less 0%nat s).
Proof.
  apply sorts_of. destruct s as [|x s]; [vm_compute; auto|]. eapply ok_mono; [apply (sort_stable_func_ok less 0%nat (x :: s) (bits_len (length (x :: s))))|].
  - pose proof (bits_len_spec (length (x :: s))). lia.
  - cbn beta. intros _ n Hn. etransitivity; [exact Hn|]. apply Nat.mul_le_mono_l. pose proof (log_bits (length (x :: s)) ltac:(cbn; lia)). lia.
Qed.
(** it always comes back when the comparison always does *)
Theorem sort_comes_back {A} (less : nat -> A -> A -> bool) next s :
  (exists c s', SortEffModel.sort_func (fun k x y => Ret (less k x y)) next 0%nat s = EVal () c s' /\ s' ≡ₚ s) /\
  (exists c s', SortEffModel.sort_stable_func (fun k x y => Ret (less k x y)) 0%nat s = EVal () c s' /\ s' ≡ₚ s).
Proof.
  split.
  - pose proof (sort_any_comparison (fun k x y => Ret (less k x y)) next s) as H. destruct (SortEffModel.sort_func _ _ _ _) as [[] c s'|c s'|c s']; cbn in H; [exists c, s'; split; [reflexivity|apply H]|destruct H as (_ & k & x & y & _ & _ & _ & H); discriminate..].
  - pose proof (sort_stable_any_comparison (fun k x y => Ret (less k x y)) s) as H. destruct (SortEffModel.sort_stable_func _ _ _) as [[] c s'|c s'|c s']; cbn in H; [exists c, s'; split; [reflexivity|apply H]|destruct H as (_ & k & x & y & _ & _ & _ & H); discriminate..].
Qed.
(** with a comparison that only compares, the slice is that of the sorts of PdqModel *)
Theorem sort_pure_same {A} (lt : A -> A -> bool) next s :
  (exists c s', SortEffModel.sort_func (fun _ x y => Ret (lt x y)) next 0%nat s = EVal () c s' /\ PdqModel.sort_func lt next s = Ret s') /\
  (exists c s', SortEffModel.sort_stable_func (fun _ x y => Ret (lt x y)) 0%nat s = EVal () c s' /\ PdqModel.sort_stable_func lt s = Ret s').
Proof.
  split.
  - destruct (sort_func_spec lt next s) as (s' & H & _). destruct (sort_func_sim lt next s s' 0%nat H) as [c R]. exists c, s'. split; [exact R|exact H].
  - destruct (sort_stable_func_spec lt s) as (s' & H & _). destruct (sort_stable_func_sim lt s s' 0%nat H) as [c R]. exists c, s'. split; [exact R|exact H].
Qed.
(** the slice a panic leaves behind need not be the one that was passed *)
Definition third_panics (k x y : nat) : res bool := if (k =? 2)%nat then Panic else Ret (x <? y)%nat.
Theorem sort_panic_restores_refuted : ~ (forall (less : nat -> nat -> nat -> res bool) next s c s', SortEffModel.sort_func less next 0%nat s = EPanic c s' -> s' = s).
Proof. intros H. specialize (H third_panics (fun z => z) [3; 2; 1]%nat 3%nat [2; 1; 3]%nat eq_refl). discriminate. Qed.
Example sort_panics : SortEffModel.sort_func third_panics (fun z => z) 0%nat [5; 3; 4; 1]%nat = EPanic 3 [3; 4; 5; 1]%nat. Proof. reflexivity. Qed.
Example sort_panics_late : SortEffModel.sort_stable_func (fun k x y => if (k =? 7)%nat then Panic else Ret (x <? y)%nat) 0%nat [5; 3; 4; 1; 2]%nat = EPanic 8 [1; 3; 4; 2; 5]%nat. Proof. reflexivity. Qed.
Example sort_liar : SortEffModel.sort_func (fun k _ _ => Ret (Nat.even k)) (fun z => z) 0%nat (seq 0 6) = EVal () 8%nat [1; 0; 3; 4; 5; 2]%nat. Proof. vm_compute. reflexivity. Qed.

(** ** the number of comparisons *)
Theorem sort_comparisons {A} (lt : A -> A -> bool) next s : strict_weak lt ->
  exists c s', SortEffModel.sort_func (fun _ x y => Ret (lt x y)) next 0%nat s = EVal () c s' /\ (c <= length s * (341 + 316 * Nat.log2 (length s)))%nat.
Proof.
  intros W. destruct (sort_func_cost lt next W s 0%nat) as ([] & c & s' & H & _ & B). exists c, s'. split; [exact H|]. rewrite Nat.sub_0_r in B. destruct s as [|x s]; [exact B|].
  etransitivity; [exact B|]. apply Nat.mul_le_mono_l. pose proof (log_bits (length (x :: s)) ltac:(cbn; lia)). lia.
Qed.
Theorem sort_stable_comparisons {A} (lt : A -> A -> bool) s :
  exists c s', SortEffModel.sort_stable_func (fun _ x y => Ret (lt x y)) 0%nat s = EVal () c s' /\ (c <= length s * (24 + 4 * Nat.log2 (length s)))%nat.
Proof.
  pose proof (sort_stable_any_comparison (fun _ x y => Ret (lt x y)) s) as H. destruct (SortEffModel.sort_stable_func _ _ _) as [[] c s'|c s'|c s']; cbn [sorts] in H; [exists c, s'; split; [reflexivity|apply H]|destruct H as (_ & k & x & y & _ & _ & _ & H); discriminate..].
Qed.
(** a slice in order: one pass, and it is left alone *)
Theorem sort_in_order {A} (lt : A -> A -> bool) next s : (forall i j x y, (i < j)%nat -> s !! i = Some x -> s !! j = Some y -> lt y x = false) ->
  exists c, SortEffModel.sort_func (fun _ x y => Ret (lt x y)) next 0%nat s = EVal () c s /\ (c <= length s + 11)%nat.
Proof.
  intros O. destruct (sort_func_ordered lt next s O 0%nat) as ([] & c & s' & H & _ & -> & B). exists c. split; [exact H|lia].
Qed.
Lemma ltb_weak : strict_weak Nat.ltb.
Proof.
  split.
  - intros x. apply Nat.ltb_irrefl.
  - intros x y z H1 H2. apply Nat.ltb_lt in H1, H2. apply Nat.ltb_lt. lia.
  - intros x y z H1 H2. apply Nat.ltb_ge in H1, H2. apply Nat.ltb_ge. lia.
Qed.
Example sort_counts : SortEffModel.sort_func (fun _ x y => Ret (x <? y)%nat) (fun z => z) 0%nat (rev (seq 0 20)) = EVal () 55%nat (seq 0 20). Proof. vm_compute. reflexivity. Qed.
Example sort_counts_in_order : SortEffModel.sort_func (fun _ x y => Ret (x <? y)%nat) (fun z => z) 0%nat (seq 0 60) = EVal () 71%nat (seq 0 60). Proof. vm_compute. reflexivity. Qed.
Example sort_counts_bound : exists c s', SortEffModel.sort_func (fun _ x y => Ret (x <? y)%nat) (fun z => z) 0%nat [3; 1; 2]%nat = EVal () c s' /\ (c <= 3 * (341 + 316 * Nat.log2 3))%nat.
Proof. apply (sort_comparisons Nat.ltb (fun z => z) [3; 1; 2]%nat ltb_weak). Qed.

Print Assumptions sort_any_comparison.
Print Assumptions sort_stable_any_comparison.
Print Assumptions sort_comes_back.
Print Assumptions sort_pure_same.
Print Assumptions sort_panic_restores_refuted.
Print Assumptions sort_comparisons.
Print Assumptions sort_stable_comparisons.
Print Assumptions sort_in_order.
