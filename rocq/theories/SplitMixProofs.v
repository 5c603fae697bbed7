(** The splitmix64 output function is a bijection on uint64; seeds never repeat. *)
From Verif Require Import Base SplitMixModel.
Local Open Scope Z_scope.

Lemma lxor_u64 x y : is_u64 x -> is_u64 y -> is_u64 (Z.lxor x y).
Proof.
  unfold is_u64. intros Hx Hy. split; [apply Z.lxor_nonneg; lia|].
  destruct (Z.eq_dec (Z.lxor x y) 0) as [->|Hn]; [lia|].
  assert (0 < Z.lxor x y) by (pose proof (proj2 (Z.lxor_nonneg x y)); lia).
  apply Z.log2_lt_pow2; [lia|].
  eapply Z.le_lt_trans; [apply Z.log2_lxor; lia|].
  assert (HL : forall z, 0 <= z < 2^64 -> Z.log2 z < 64).
  { intros z Hz. destruct (Z.eq_dec z 0) as [->|]; [cbn; lia|]. apply Z.log2_lt_pow2; lia. }
  apply Z.max_lub_lt; apply HL; lia.
Qed.
Lemma shiftr_u64 x s : 0 <= s -> is_u64 x -> is_u64 (Z.shiftr x s).
Proof.
  unfold is_u64. intros Hs Hx. rewrite Z.shiftr_div_pow2 by lia. split.
  - apply Z.div_pos; [lia|apply Z.pow_pos_nonneg; lia].
  - assert (0 < 2^s) by (apply Z.pow_pos_nonneg; lia).
    apply Z.div_lt_upper_bound; [lia|]. nia.
Qed.

Definition xs (s x : Z) : Z := Z.lxor x (Z.shiftr x s).
Lemma xs_u64 s x : 0 <= s -> is_u64 x -> is_u64 (xs s x).
Proof. intros. apply lxor_u64; [assumption|]. apply shiftr_u64; assumption. Qed.

Lemma xs_inj s x y : 0 < s -> is_u64 x -> is_u64 y -> xs s x = xs s y -> x = y.
Proof.
  intros Hs Hx Hy E. apply Z.lxor_eq. set (d := Z.lxor x y).
  assert (Hd : is_u64 d) by (apply lxor_u64; assumption).
  assert (Ed : d = Z.shiftr d s).
  { apply Z.lxor_eq. subst d. rewrite Z.shiftr_lxor.
    transitivity (Z.lxor (xs s x) (xs s y)).
    - unfold xs. apply Z.bits_inj'. intros n Hn. rewrite !Z.lxor_spec.
      destruct (Z.testbit x n), (Z.testbit y n), (Z.testbit (Z.shiftr x s) n), (Z.testbit (Z.shiftr y s) n); reflexivity.
    - rewrite E. apply Z.lxor_nilpotent. }
  destruct (Z.eq_dec d 0) as [?|Hn]; [assumption|exfalso].
  rewrite Z.shiftr_div_pow2 in Ed by lia. unfold is_u64 in Hd.
  assert (2 <= 2^s) by (change 2 with (2^1) at 1; apply Z.pow_le_mono_r; lia).
  assert (d / 2^s < d) by (apply Z.div_lt; lia). lia.
Qed.

(** enough shifts: an explicit inverse of an xorshift by at least 22 *)
Definition unxs (s y : Z) : Z := Z.lxor (Z.lxor y (Z.shiftr y s)) (Z.shiftr y (s + s)).
Lemma unxs_u64 s y : 0 <= s -> is_u64 y -> is_u64 (unxs s y).
Proof. intros. unfold unxs. repeat apply lxor_u64; try apply shiftr_u64; try assumption; lia. Qed.
Lemma xs_unxs s y : 22 <= s -> is_u64 y -> xs s (unxs s y) = y.
Proof.
  intros Hs Hy. unfold xs, unxs. apply Z.bits_inj'. intros n Hn.
  rewrite !Z.lxor_spec, !Z.shiftr_spec, !Z.lxor_spec, !Z.shiftr_spec by lia.
  assert (E : Z.testbit y (n + s + (s + s)) = false).
  { unfold is_u64 in Hy. destruct (Z.eq_dec y 0) as [->|]; [apply Z.bits_0|].
    apply Z.bits_above_log2; [lia|]. assert (Z.log2 y < 64) by (apply Z.log2_lt_pow2; lia). lia. }
  rewrite E. replace (n + s + s) with (n + (s + s)) by lia.
  destruct (Z.testbit y n), (Z.testbit y (n + s)), (Z.testbit y (n + (s + s))); reflexivity.
Qed.

Lemma mul_cancel c ci x : c * ci mod 2^64 = 1 -> is_u64 x -> u64 (u64 (x * c) * ci) = x.
Proof.
  unfold u64, is_u64. intros Hc Hx. rewrite Z.mul_mod_idemp_l by lia.
  rewrite <- Z.mul_assoc, <- Z.mul_mod_idemp_r by lia. rewrite Hc, Z.mul_1_r. apply Z.mod_small; lia.
Qed.

Definition inv1 : Z := 0x96de1b173f119089.
Definition inv2 : Z := 0x319642b2d24d8ec3.
Definition invI : Z := 0xf1de83e19937733d.
Lemma inv1_ok : 0xbf58476d1ce4e5b9 * inv1 mod 2^64 = 1. Proof. vm_compute. reflexivity. Qed.
Lemma inv2_ok : 0x94d049bb133111eb * inv2 mod 2^64 = 1. Proof. vm_compute. reflexivity. Qed.
Lemma invI_ok : incrementConstant * invI mod 2^64 = 1. Proof. vm_compute. reflexivity. Qed.

Lemma mix_u64 x : is_u64 x -> is_u64 (mix x).
Proof. intros Hx. unfold mix. apply (xs_u64 31); [lia|]. apply u64_range. Qed.
Lemma mix_inj x y : is_u64 x -> is_u64 y -> mix x = mix y -> x = y.
Proof.
  intros Hx Hy E. unfold mix in E. apply (xs_inj 31) in E; [|lia|apply u64_range..].
  apply (f_equal (fun z => u64 (z * inv2))) in E.
  rewrite !(mul_cancel _ _ _ inv2_ok) in E by (apply (xs_u64 27); [lia|apply u64_range]).
  apply (xs_inj 27) in E; [|lia|apply u64_range..].
  apply (f_equal (fun z => u64 (z * inv1))) in E.
  rewrite !(mul_cancel _ _ _ inv1_ok) in E by (apply (xs_u64 30); [lia|assumption]).
  apply (xs_inj 30) in E; [exact E|lia|assumption..].
Qed.
Lemma mix_surj y : is_u64 y -> exists x, is_u64 x /\ mix x = y.
Proof.
  intros Hy. set (a := unxs 31 y). set (b := unxs 27 (u64 (a * inv2))). set (c := unxs 30 (u64 (b * inv1))).
  assert (Ha : is_u64 a) by (apply unxs_u64; [lia|exact Hy]).
  assert (Hb : is_u64 b) by (apply unxs_u64; [lia|apply u64_range]).
  exists c. split; [apply unxs_u64; [lia|apply u64_range]|]. unfold mix.
  change (Z.lxor c (Z.shiftr c 30)) with (xs 30 c). subst c. rewrite xs_unxs; [|lia|apply u64_range].
  rewrite (mul_cancel inv1 0xbf58476d1ce4e5b9 b); [|vm_compute; reflexivity|exact Hb].
  change (Z.lxor b (Z.shiftr b 27)) with (xs 27 b). subst b. rewrite xs_unxs; [|lia|apply u64_range].
  rewrite (mul_cancel inv2 0x94d049bb133111eb a); [|vm_compute; reflexivity|exact Ha].
  change (Z.lxor a (Z.shiftr a 31)) with (xs 31 a). subst a. apply xs_unxs; [lia|exact Hy].
Qed.

(** the root counter after n calls, and the n-th seed handed out *)
Definition root_after (root : Z) (n : nat) : Z := Nat.iter n (fun r => (root_next r).1) root.
Definition nth_seed (root : Z) (n : nat) : Z := (root_next (root_after root n)).2.
Lemma root_after_eq root n : is_u64 root -> root_after root n = u64 (root + Z.of_nat n * incrementConstant).
Proof.
  intros Hr. induction n as [|n IH].
  - cbn [root_after Nat.iter nat_rect]. rewrite Z.mul_0_l, Z.add_0_r, u64_id by assumption. reflexivity.
  - unfold root_after in *. cbn [Nat.iter nat_rect]. unfold Nat.iter in IH. rewrite IH. unfold root_next. cbn [fst].
    unfold u64. rewrite Z.add_mod_idemp_l by lia. f_equal. lia.
Qed.
Lemma nth_seed_inj root i j :
  is_u64 root -> Z.of_nat i < 2^64 -> Z.of_nat j < 2^64 -> nth_seed root i = nth_seed root j -> i = j.
Proof.
  intros Hr Hi Hj E. unfold nth_seed, root_next in E. cbn [snd] in E.
  apply mix_inj in E; [|apply u64_range..]. rewrite !root_after_eq in E by assumption.
  assert (F : forall n, u64 (u64 (root + Z.of_nat n * incrementConstant) + incrementConstant)
                        = u64 ((root + incrementConstant) + Z.of_nat n * incrementConstant)).
  { intros n. unfold u64. rewrite Z.add_mod_idemp_l by lia. f_equal. lia. }
  rewrite !F in E. clear F.
  apply (f_equal (fun z => u64 ((z - (root + incrementConstant)) * invI))) in E.
  assert (F : forall n, Z.of_nat n < 2^64 ->
    u64 ((u64 (root + incrementConstant + Z.of_nat n * incrementConstant) - (root + incrementConstant)) * invI) = Z.of_nat n).
  { intros n Hn. unfold u64. rewrite <- Z.mul_mod_idemp_l by lia. rewrite Zminus_mod_idemp_l.
    replace (root + incrementConstant + Z.of_nat n * incrementConstant - (root + incrementConstant))
      with (Z.of_nat n * incrementConstant) by lia.
    apply (mul_cancel _ _ _ invI_ok). unfold is_u64. lia. }
  rewrite !F in E by assumption. lia.
Qed.
