(** Properties of dsx/mapx/sklmapx/splitmix64.go and rand_height (C120). *)
From Verif Require Import Base SplitMixModel SplitMixProofs.
Local Open Scope Z_scope.

(** SplitMix64 as published (Vigna, splitmix64.c): the i-th output, i = 1, 2, ...,
    of a generator that starts with the state [seed] *)
Definition sm_scramble (z : Z) : Z :=
  let z := Z.lxor z (z / 2^30) * 13787848793156543929 mod 2^64 in
  let z := Z.lxor z (z / 2^27) * 10723151780598845931 mod 2^64 in
  Z.lxor z (z / 2^31).
Definition sm_output (seed : Z) (i : nat) : Z := sm_scramble ((seed + Z.of_nat i * 11400714819323198485) mod 2^64).
(** the published test vector: seed 1234567 *)
Example sm_vector : map (sm_output 1234567) [1; 2; 3; 4; 5]%nat =
  [6457827717110365317; 3203168211198807973; 9817491932198370423; 4593380528125082431; 16408922859458223821].
Proof. vm_compute. reflexivity. Qed.

Lemma sm_mix x : sm_scramble x = mix x.
Proof. unfold sm_scramble, mix, u64. rewrite !Z.shiftr_div_pow2 by lia. reflexivity. Qed.
Lemma sm_state seed : splitmix64 seed = (u64 (seed + incrementConstant), sm_output seed 1).
Proof. unfold splitmix64, sm_output. rewrite sm_mix. change (Z.of_nat 1 * 11400714819323198485) with incrementConstant. reflexivity. Qed.
Lemma sm_shift seed i : sm_output (u64 (seed + incrementConstant)) i = sm_output seed (S i).
Proof.
  unfold sm_output, u64. f_equal. rewrite Z.add_mod_idemp_l by lia. f_equal. unfold incrementConstant. lia.
Qed.
Theorem splitmix_outputs seed n : is_u64 seed ->
  let st := Nat.iter n (fun s => (splitmix64 s).1) seed in
  st = (seed + Z.of_nat n * 11400714819323198485) mod 2^64 /\ (splitmix64 st).2 = sm_output seed (S n).
Proof.
  intros Hs st. assert (E : st = (seed + Z.of_nat n * 11400714819323198485) mod 2^64).
  { subst st. induction n as [|n IH]; [cbn [Nat.iter nat_rect]; rewrite Z.mul_0_l, Z.add_0_r; symmetry; apply Z.mod_small; exact Hs|].
    change (Nat.iter (S n) (fun s => (splitmix64 s).1) seed) with (u64 (Nat.iter n (fun s => (splitmix64 s).1) seed + incrementConstant)).
    rewrite IH. unfold u64. rewrite Z.add_mod_idemp_l by lia. f_equal. unfold incrementConstant. lia. }
  split; [exact E|]. rewrite E, sm_state. cbn [snd]. unfold sm_output. rewrite Z.add_mod_idemp_l by lia. do 2 f_equal. lia.
Qed.
(** the root generator, which gives every map its seed, starts in the first output for the
    number drawn at program start; the i-th map gets its i-th output *)
Theorem root_outputs s n : is_u64 s ->
  root_init s = sm_output s 1 /\
  (root_next (Nat.iter n (fun r => (root_next r).1) (root_init s))).2 = sm_output (sm_output s 1) (S n).
Proof.
  intros Hs. assert (E : root_init s = sm_output s 1).
  { unfold root_init, sm_output. rewrite sm_mix. reflexivity. }
  split; [exact E|]. rewrite E. apply (splitmix_outputs (sm_output s 1) n). unfold sm_output. rewrite sm_mix. apply mix_u64. apply u64_range.
Qed.

(** toss i of a map with this seed: is the output odd? *)
Definition toss (seed : Z) (i : nat) : bool := Z.odd (sm_output seed i).
Lemma land_odd v : (Z.land v 1 =? 1) = Z.odd v.
Proof. change 1 with (Z.ones 1) at 1. rewrite Z.land_ones by lia. change (2^1) with 2. rewrite Zmod_odd. destruct (Z.odd v); reflexivity. Qed.
Lemma loop_exact n : forall h seed, let r := rand_height_loop n h seed in
  exists k, (r.2 = h + k)%nat /\ (k <= n)%nat /\ (forall i, (1 <= i <= k)%nat -> toss seed i = false) /\
    (if decide (k < n)%nat then toss seed (S k) = true /\ r.1 = u64 (seed + Z.of_nat (S k) * incrementConstant)
     else is_u64 seed -> r.1 = u64 (seed + Z.of_nat k * incrementConstant)).
Proof.
  induction n as [|n IH]; intros h seed r.
  - exists 0%nat. subst r. cbn [rand_height_loop fst snd]. split; [lia|]. split; [lia|]. split; [intros; lia|]. destruct (decide _); [lia|]. intros Hs. rewrite Z.mul_0_l, Z.add_0_r. symmetry. apply u64_id. exact Hs.
  - subst r. cbn [rand_height_loop]. rewrite sm_state, land_odd. fold (toss seed 1). destruct (toss seed 1) eqn:E1.
    + exists 0%nat. cbn [fst snd]. split; [lia|]. split; [lia|]. split; [intros; lia|]. destruct (decide _); [|lia]. split; [exact E1|]. reflexivity.
    + destruct (IH (S h) (u64 (seed + incrementConstant))) as (k & H1 & H2 & H3 & H4). exists (S k). split; [lia|]. split; [lia|].
      assert (Ht : forall i, toss (u64 (seed + incrementConstant)) i = toss seed (S i)) by (intros i; unfold toss; rewrite sm_shift; reflexivity).
      assert (Hu : forall j : nat, u64 (u64 (seed + incrementConstant) + Z.of_nat j * incrementConstant) = u64 (seed + Z.of_nat (S j) * incrementConstant)).
      { intros j. unfold u64. rewrite Z.add_mod_idemp_l by lia. f_equal. lia. }
      split.
      * intros i Hi. destruct i as [|i]; [lia|]. destruct i as [|i]; [exact E1|]. rewrite <- Ht. apply H3. lia.
      * destruct (decide (k < n)%nat) as [L|L], (decide (S k < S n)%nat); try lia.
        -- rewrite Ht, Hu in H4. exact H4.
        -- intros _. rewrite H4 by (apply u64_range). apply Hu.
Qed.

(** C120: the height is the position of the first odd output, at most 16; the seed
    moves on by the outputs used *)
Theorem heights_exact seed : is_u64 seed ->
  let '(seed', h) := rand_height seed in
  (1 <= h <= 16)%nat /\ (forall i, (1 <= i < h)%nat -> toss seed i = false) /\ ((h < 16)%nat -> toss seed h = true) /\
  seed' = (seed + Z.of_nat (h `min` 15) * 11400714819323198485) mod 2^64.
Proof.
  intros Hs. unfold rand_height. change (MAX_HEIGHT - 1)%nat with 15%nat. destruct (loop_exact 15 1 seed) as (k & H1 & H2 & H3 & H4).
  destruct (rand_height_loop 15 1 seed) as [seed' h]. cbn [fst snd] in *. subst h. split; [lia|]. split; [intros i Hi; apply H3; lia|].
  destruct (decide (k < 15)%nat) as [L|L].
  - destruct H4 as [H4 ->]. split; [intros _; exact H4|]. rewrite Nat.min_l by lia. reflexivity.
  - split; [lia|]. rewrite Nat.min_r by lia. rewrite H4 by exact Hs. assert (k = 15)%nat as -> by lia. reflexivity.
Qed.
(** each toss is fair over the seeds: exactly half of the 2^64 seeds give an odd
    i-th output, so exactly half give height 1 *)
Lemma count_odd (f : Z -> Z) (l : list Z) : (forall x, is_u64 x -> is_u64 (f x)) -> (forall x y, is_u64 x -> is_u64 y -> f x = f y -> x = y) -> (forall y, is_u64 y -> exists x, is_u64 x /\ f x = y) ->
  NoDup l -> (forall s, s ∈ l <-> is_u64 s /\ Z.odd (f s) = true) -> Z.of_nat (length l) = 2^63.
Proof.
  intros F1 F2 F3 N H.
  assert (P : f <$> l ≡ₚ (fun k => 2 * k + 1) <$> seqZ 0 (2^63)).
  { apply NoDup_Permutation.
    - apply NoDup_fmap_2_strong; [|exact N]. intros x y Hx Hy E. apply H in Hx as [Hx _], Hy as [Hy _]. exact (F2 x y Hx Hy E).
    - apply NoDup_fmap_2; [intros x y E; lia|]. apply NoDup_seqZ.
    - intros y. rewrite !elem_of_list_fmap. split.
      + intros (x & -> & Hx). apply H in Hx as [Hx Ho]. apply F1 in Hx. exists (f x / 2). rewrite elem_of_seqZ. unfold is_u64 in Hx.
        pose proof (Z.div_mod (f x) 2 ltac:(lia)) as D. rewrite Zmod_odd, Ho in D. split; [exact D|]. lia.
      + intros (k & -> & Hk). rewrite elem_of_seqZ in Hk. destruct (F3 (2 * k + 1)) as (x & Hx & E); [unfold is_u64; lia|]. exists x. split; [symmetry; exact E|].
        apply H. split; [exact Hx|]. rewrite E, Z.add_1_r, Z.odd_succ, Z.even_mul. reflexivity. }
  apply Permutation_length in P. rewrite !fmap_length, seqZ_length in P. rewrite P, Z2Nat.id by lia. reflexivity.
Qed.
Theorem toss_fair i (l : list Z) : NoDup l -> (forall s, s ∈ l <-> is_u64 s /\ toss s i = true) -> Z.of_nat (length l) = 2^63.
Proof.
  intros N H. set (g := Z.of_nat i * 11400714819323198485). assert (E : forall s, sm_output s i = mix (u64 (s + g))) by (intros s; unfold sm_output; rewrite sm_mix; reflexivity).
  apply (count_odd (fun s => sm_output s i) l); [| | |exact N|exact H].
  - intros x _. rewrite E. apply mix_u64, u64_range.
  - intros x y Hx Hy. rewrite !E. intros Q. apply mix_inj in Q; [|apply u64_range..].
    apply (f_equal (fun z => u64 (z - g))) in Q. unfold u64 in Q. rewrite !Zminus_mod_idemp_l, !Z.add_simpl_r in Q. unfold is_u64 in *. rewrite !Z.mod_small in Q by assumption. exact Q.
  - intros y Hy. destruct (mix_surj y Hy) as (z & Hz & <-). exists (u64 (z - g)). split; [apply u64_range|]. rewrite E. f_equal. unfold u64. rewrite Z.add_mod_idemp_l, Z.sub_add by lia. apply Z.mod_small. exact Hz.
Qed.
Corollary height_one_half (l : list Z) : NoDup l -> (forall s, s ∈ l <-> is_u64 s /\ (rand_height s).2 = 1%nat) -> Z.of_nat (length l) = 2^63.
Proof.
  intros N H. apply (toss_fair 1 l N). intros s. rewrite H. split; intros [Hs Q]; (split; [exact Hs|]).
  - pose proof (heights_exact s Hs) as E. destruct (rand_height s) as [s' h]. cbn [snd] in Q. subst h. apply E. lia.
  - pose proof (heights_exact s Hs) as E. destruct (rand_height s) as [s' h]. cbn [snd]. destruct E as (E1 & E2 & _). destruct (decide (h = 1)%nat) as [|Hn]; [assumption|]. rewrite (E2 1%nat) in Q by lia. discriminate.
Qed.
(** such a list exists *)
Example toss_list_ex i : exists l, NoDup l /\ forall s, s ∈ l <-> is_u64 s /\ toss s i = true.
Proof.
  exists (filter (fun s => toss s i = true) (seqZ 0 (2^64))). split; [apply NoDup_filter, NoDup_seqZ|]. intros s. rewrite elem_of_list_filter, elem_of_seqZ. unfold is_u64. intuition lia.
Qed.
Example heights_ex : map (fun s => (rand_height s).2) [0; 1; 2; 3; 4; 5; 6; 7; 57] = [1; 1; 3; 1; 3; 3; 2; 1; 1]%nat.
Proof. vm_compute. reflexivity. Qed.
Print Assumptions splitmix_outputs.
Print Assumptions root_outputs.
Print Assumptions heights_exact.
Print Assumptions toss_fair.
Print Assumptions height_one_half.
