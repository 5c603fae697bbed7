(** C162: the SHA-256 of the model is that of FIPS 180-4. *)
From Coq Require Import ZArith.Znumtheory.
From Verif Require Import Base PassModel PassProofs AesModel AesProps AesCipherModel AesCipherProofs.
Local Open Scope Z.

(** *** Specification *)
(** the word with these bits *)
Definition of_bits (f : Z -> bool) : Z := foldr (fun i x => x + (if f i then 2^i else 0)) 0 (seqZ 0 32).
Definition turned (n x i : Z) : bool := Z.testbit x ((i + n) mod 32).
Definition moved (n x i : Z) : bool := Z.testbit x (i + n).
(** 4.1.2: the functions *)
Definition Ch (x y z : Z) : Z := of_bits (fun i => if Z.testbit x i then Z.testbit y i else Z.testbit z i).
Definition Maj (x y z : Z) : Z := of_bits (fun i => (Z.testbit x i && Z.testbit y i) || (Z.testbit x i && Z.testbit z i) || (Z.testbit y i && Z.testbit z i)).
Definition Sum0 (x : Z) : Z := of_bits (fun i => xorb (turned 2 x i) (xorb (turned 13 x i) (turned 22 x i))).
Definition Sum1 (x : Z) : Z := of_bits (fun i => xorb (turned 6 x i) (xorb (turned 11 x i) (turned 25 x i))).
Definition sum0 (x : Z) : Z := of_bits (fun i => xorb (turned 7 x i) (xorb (turned 18 x i) (moved 3 x i))).
Definition sum1 (x : Z) : Z := of_bits (fun i => xorb (turned 17 x i) (xorb (turned 19 x i) (moved 10 x i))).
(** 4.2.2, 5.3.3: the first 32 bits of the fractional part of the k-th root of the i-th prime *)
Definition nth_prime (i : nat) (p : Z) : Prop := prime p /\ exists l, NoDup l /\ length l = i /\ forall q, q ∈ l <-> prime q /\ q < p.
Definition root_bits (k p x : Z) : Prop := exists r, 0 <= r /\ r^k <= p * 2^(32 * k) < (r + 1)^k /\ x = r mod 2^32.
(** 5.1.1: a one, zeros, the length in bits; as few zeros as it takes *)
Definition value (l : list Z) : Z := foldl (fun x b => 256 * x + b) 0 l.
Definition padded (m p : bytes) : Prop := exists z len, p = m ++ [128] ++ repeat 0 z ++ len /\ (z < 64)%nat /\ (64 | Z.of_nat (length p)) /\
  length len = 8%nat /\ Forall is_byte len /\ value len = (8 * Z.of_nat (length m)) mod 2^64.
(** 6.2.2: one block.  A t is the variable d of round t, the c of the round before and so on; E t is h *)
Definition compress (K : nat -> Z) (H : list Z) (B : bytes) (H' : list Z) : Prop := exists W A E : nat -> Z,
  (forall t, (t < 16)%nat -> W t = value (take 4 (drop (4 * t) B))) /\
  (forall t, (16 <= t < 64)%nat -> W t = (sum1 (W (t - 2)%nat) + W (t - 7)%nat + sum0 (W (t - 15)%nat) + W (t - 16)%nat) mod 2^32) /\
  H = [A 3%nat; A 2%nat; A 1%nat; A 0%nat; E 3%nat; E 2%nat; E 1%nat; E 0%nat] /\
  (forall t, (t < 64)%nat -> let T1 := E t + Sum1 (E (t + 3)%nat) + Ch (E (t + 3)%nat) (E (t + 2)%nat) (E (t + 1)%nat) + K t + W t in
     E (t + 4)%nat = (A t + T1) mod 2^32 /\ A (t + 4)%nat = (T1 + Sum0 (A (t + 3)%nat) + Maj (A (t + 3)%nat) (A (t + 2)%nat) (A (t + 1)%nat)) mod 2^32) /\
  H' = zip_with (fun x y => (x + y) mod 2^32) H [A 67%nat; A 66%nat; A 65%nat; A 64%nat; E 67%nat; E 66%nat; E 65%nat; E 64%nat].
Definition is_sha256 (m d : bytes) : Prop := exists K p n (H : nat -> list Z),
  (forall t, (t < 64)%nat -> exists q, nth_prime t q /\ root_bits 3 q (K t)) /\
  padded m p /\ length p = (64 * n)%nat /\
  length (H 0%nat) = 8%nat /\ (forall i, (i < 8)%nat -> exists q, nth_prime i q /\ root_bits 2 q (nth i (H 0%nat) 0)) /\
  (forall i, (i < n)%nat -> compress K (H i) (take 64 (drop (64 * i) p)) (H (S i))) /\
  length d = 32%nat /\ Forall is_byte d /\ forall i, (i < 8)%nat -> value (take 4 (drop (4 * i) d)) = nth i (H n) 0.

(** *** Lemmas *)
Definition word (x : Z) : Prop := 0 <= x < 2^32.
Lemma of_bits_go (f : Z -> bool) n : forall k, 0 <= k -> 
  0 <= foldr (fun i x => x + (if f i then 2^i else 0)) 0 (seqZ k (Z.of_nat n)) /\
  forall i, 0 <= i -> Z.testbit (foldr (fun i x => x + (if f i then 2^i else 0)) 0 (seqZ k (Z.of_nat n))) i = (k <=? i) && (i <? k + Z.of_nat n) && f i.
Proof.
  induction n as [|n IH]; intros k Hk.
  - change (seqZ k (Z.of_nat 0)) with (@nil Z). cbn [foldr]. split; [lia|]. intros i Hi. rewrite Z.testbit_0_l. change (Z.of_nat 0) with 0. destruct (Z.leb_spec k i), (Z.ltb_spec i (k + 0)); try lia; reflexivity.
  - rewrite Nat2Z.inj_succ, seqZ_cons by lia. replace (Z.pred (Z.succ (Z.of_nat n))) with (Z.of_nat n) by lia. cbn [foldr]. destruct (IH (Z.succ k) ltac:(lia)) as [H1 H2]. set (x := foldr _ 0 (seqZ (Z.succ k) (Z.of_nat n))) in *.
    assert (P : 0 < 2^k) by (apply Z.pow_pos_nonneg; lia). split; [destruct (f k); lia|]. intros i Hi.
    assert (E : x + (if f k then 2^k else 0) = Z.lor x (if f k then 2^k else 0)).
    { destruct (f k); [|rewrite Z.lor_0_r; lia]. rewrite <- Z.lxor_lor, <- Z.add_nocarry_lxor; [reflexivity| |].
      all: apply Z.bits_inj'; intros j Hj; rewrite Z.land_spec, Z.bits_0, H2, Z.pow2_bits_eqb by lia; destruct (Z.eqb_spec k j); [|apply andb_false_r]; subst j; destruct (Z.leb_spec (Z.succ k) k); [lia|reflexivity]. }
    rewrite E, Z.lor_spec, H2 by lia. assert (Eb : Z.testbit (if f k then 2^k else 0) i = (k =? i) && f i).
    { destruct (Z.eqb_spec k i) as [<-|]; destruct (f k) eqn:Ef; cbn; rewrite ?Z.bits_0, ?Z.pow2_bits_eqb by lia; try (destruct (Z.eqb_spec k i); congruence); rewrite ?Z.eqb_refl; auto. }
    rewrite Eb. destruct (Z.leb_spec k i), (Z.leb_spec (Z.succ k) i), (Z.ltb_spec i (k + Z.succ (Z.of_nat n))), (Z.ltb_spec i (Z.succ k + Z.of_nat n)), (Z.eqb_spec k i); try lia; cbn; destruct (f i); reflexivity.
Qed.
Lemma bits_word x : 0 <= x -> (forall i, 32 <= i -> Z.testbit x i = false) -> word x.
Proof.
  intros H0 H. split; [exact H0|]. destruct (Z.lt_ge_cases x (2^32)) as [|L]; [assumption|]. exfalso. pose proof (Z.bit_log2 x ltac:(lia)) as B. rewrite H in B; [discriminate|]. apply Z.log2_le_pow2; lia.
Qed.
Lemma of_bits_word f : word (of_bits f) /\ forall i, 0 <= i < 32 -> Z.testbit (of_bits f) i = f i.
Proof.
  destruct (of_bits_go f 32 0 ltac:(lia)) as [H1 H2]. unfold of_bits. change (Z.of_nat 32) with 32 in *. set (x := foldr _ 0 (seqZ 0 32)) in *. clearbody x. split.
  - apply bits_word; [exact H1|]. intros i Hi. rewrite H2 by lia. destruct (Z.ltb_spec i (0 + 32)); [lia|]. rewrite andb_false_r. reflexivity.
  - intros i Hi. rewrite H2 by lia. destruct (Z.leb_spec 0 i), (Z.ltb_spec i (0 + 32)); try lia. reflexivity.
Qed.
Lemma word_high x i : word x -> 32 <= i -> Z.testbit x i = false.
Proof. intros [H1 H2] Hi. destruct (Z.eq_dec x 0) as [->|]; [apply Z.bits_0|]. apply Z.bits_above_log2; [lia|]. assert (Z.log2 x < 32) by (apply Z.log2_lt_pow2; lia). lia. Qed.
Lemma word_ext x y : word x -> word y -> (forall i, 0 <= i < 32 -> Z.testbit x i = Z.testbit y i) -> x = y.
Proof. intros Hx Hy H. apply Z.bits_inj'. intros i Hi. destruct (Z.lt_ge_cases i 32); [apply H; lia|]. rewrite !word_high by (assumption || lia). reflexivity. Qed.
Lemma is_bits x f : word x -> (forall i, 0 <= i < 32 -> Z.testbit x i = f i) -> x = of_bits f.
Proof. intros Hx H. destruct (of_bits_word f) as [W B]. apply word_ext; [exact Hx|exact W|]. intros i Hi. rewrite H, B by lia. reflexivity. Qed.
Lemma u32_word x : word (u32 x).
Proof. apply Z.mod_pos_bound. lia. Qed.
Lemma u32_bit x i : 0 <= i < 32 -> Z.testbit (u32 x) i = Z.testbit x i.
Proof. intros H. unfold u32. apply Z.mod_pow2_bits_low. lia. Qed.
Lemma rotr_word x n : word x -> 0 < n < 32 -> word (rotr x n) /\ forall i, 0 <= i < 32 -> Z.testbit (rotr x n) i = turned n x i.
Proof.
  intros Hx Hn. assert (S : forall i, 0 <= i -> Z.testbit (rotr x n) i = Z.testbit x (i + n) || (i <? 32) && Z.testbit x (i - (32 - n))).
  { intros i Hi. unfold rotr. rewrite Z.lor_spec, Z.shiftr_spec by lia. f_equal. destruct (Z.ltb_spec i 32) as [L|L]; cbn [andb].
    - rewrite u32_bit by lia. apply Z.shiftl_spec. lia.
    - apply word_high; [apply u32_word|exact L]. }
  split.
  - apply bits_word.
    + unfold rotr. apply Z.lor_nonneg. split; [apply Z.shiftr_nonneg; apply Hx|apply u32_word].
    + intros i Hi. rewrite S by lia. destruct (Z.ltb_spec i 32); [lia|]. rewrite word_high by (assumption || lia). reflexivity.
  - intros i Hi. rewrite S by lia. destruct (Z.ltb_spec i 32); [|lia]. cbn [andb]. unfold turned. destruct (Z.lt_ge_cases (i + n) 32).
    + rewrite (Z.testbit_neg_r x (i - (32 - n))) by lia. rewrite orb_false_r, Z.mod_small by lia. reflexivity.
    + rewrite (word_high x (i + n)) by (assumption || lia). cbn [orb]. f_equal. rewrite <- (Z.mod_add (i + n) (-1) 32), Z.mod_small by lia. lia.
Qed.
Lemma sigma_bits a b c (sh : bool) x : word x -> 0 < a < 32 -> 0 < b < 32 -> 0 < c < 32 -> sigma a b c sh x = of_bits (fun i => xorb (turned a x i) (xorb (turned b x i) (if sh then moved c x i else turned c x i))).
Proof.
  intros Hx Ha Hb Hc. destruct (rotr_word x a Hx Ha) as [A1 A2]. destruct (rotr_word x b Hx Hb) as [B1 B2]. destruct (rotr_word x c Hx Hc) as [C1 C2].
  assert (D : word (if sh then Z.shiftr x c else rotr x c) /\ forall i, 0 <= i < 32 -> Z.testbit (if sh then Z.shiftr x c else rotr x c) i = if sh then moved c x i else turned c x i).
  { destruct sh; [|auto]. split; [|intros i Hi; apply Z.shiftr_spec; lia]. apply bits_word; [apply Z.shiftr_nonneg, Hx|]. intros i Hi. rewrite Z.shiftr_spec by lia. apply word_high; [exact Hx|lia]. }
  destruct D as [D1 D2]. unfold sigma. apply is_bits.
  - apply bits_word; [rewrite !Z.lxor_nonneg; unfold word in *; intuition lia|]. intros i Hi. rewrite !Z.lxor_spec, !word_high by (assumption || lia). reflexivity.
  - intros i Hi. rewrite !Z.lxor_spec, A2, B2, D2 by lia. reflexivity.
Qed.
Lemma sigma_words x : word x -> sigma 17 19 10 true x = sum1 x /\ sigma 7 18 3 true x = sum0 x /\ sigma 6 11 25 false x = Sum1 x /\ sigma 2 13 22 false x = Sum0 x.
Proof. intros H. rewrite !sigma_bits by (assumption || lia). unfold sum1, sum0, Sum1, Sum0. auto. Qed.
Lemma ch_bits x y z : word x -> word y -> word z -> Z.lxor (Z.land x y) (Z.land (2^32 - 1 - x) z) = Ch x y z.
Proof.
  intros Hx Hy Hz. assert (E : 2^32 - 1 - x = Z.ldiff (Z.ones 32) x).
  { change (2^32 - 1) with (Z.ones 32). apply Z.sub_nocarry_ldiff. apply Z.ldiff_ones_r_low; [apply Hx|]. destruct (Z.eq_dec x 0) as [->|]; [reflexivity|]. apply Z.log2_lt_pow2; unfold word in Hx; lia. }
  rewrite E. apply is_bits.
  - apply bits_word; [apply Z.lxor_nonneg; rewrite !Z.land_nonneg; unfold word in *; intuition lia|]. intros i Hi. rewrite Z.lxor_spec, !Z.land_spec, (word_high y), (word_high z) by (assumption || lia). rewrite !andb_false_r. reflexivity.
  - intros i Hi. rewrite Z.lxor_spec, !Z.land_spec, Z.ldiff_spec, Z.ones_spec_low by lia. cbn [andb]. destruct (Z.testbit x i), (Z.testbit y i), (Z.testbit z i); reflexivity.
Qed.
Lemma maj_bits x y z : word x -> word y -> word z -> Z.lxor (Z.land x y) (Z.lxor (Z.land x z) (Z.land y z)) = Maj x y z.
Proof.
  intros Hx Hy Hz. apply is_bits.
  - apply bits_word; [rewrite !Z.lxor_nonneg, !Z.land_nonneg; unfold word in *; intuition lia|]. intros i Hi. rewrite !Z.lxor_spec, !Z.land_spec, !word_high by (assumption || lia). reflexivity.
  - intros i Hi. rewrite !Z.lxor_spec, !Z.land_spec. destruct (Z.testbit x i), (Z.testbit y i), (Z.testbit z i); reflexivity.
Qed.
(** *** bytes and words *)
Lemma unbe_value l : unbe l = value l.
Proof. unfold unbe, value. generalize 0. induction l as [|b l IH]; intros x; cbn; [reflexivity|]. rewrite IH. f_equal. lia. Qed.
Lemma value_snoc l b : value (l ++ [b]) = 256 * value l + b.
Proof. unfold value. rewrite foldl_app. reflexivity. Qed.
Lemma be_ok n : forall v, length (be n v) = n /\ Forall is_byte (be n v) /\ value (be n v) = v mod 256^Z.of_nat n.
Proof.
  induction n as [|n IH]; intros v; [cbn; rewrite Z.mod_1_r; auto|]. cbn [be]. destruct (IH (v / 256)) as (H1 & H2 & H3). rewrite app_length, H1, value_snoc, H3. split; [cbn; lia|]. split.
  - apply Forall_app. split; [exact H2|]. constructor; [apply Z.mod_pos_bound; lia|constructor].
  - rewrite Nat2Z.inj_succ, Z.pow_succ_r by lia. rewrite Z.rem_mul_r by (try apply Z.pow_nonzero; lia). lia.
Qed.
Lemma words32_nth n : forall b t, (t < n)%nat -> nth t (words32 n b) 0 = value (take 4 (drop (4 * t) b)).
Proof.
  induction n as [|n IH]; intros b t Ht; [lia|]. cbn [words32]. destruct t as [|t]; [cbn [nth]; rewrite unbe_value; reflexivity|]. cbn [nth]. rewrite IH by lia. rewrite drop_drop. do 3 f_equal. lia.
Qed.
Lemma words32_length n b : length (words32 n b) = n.
Proof. revert b. induction n as [|n IH]; intros b; cbn; [reflexivity|]. rewrite IH. reflexivity. Qed.
Lemma value_take4 l : Forall is_byte l -> word (value (take 4 l)).
Proof.
  intros H. assert (G : forall l, Forall is_byte l -> (length l <= 4)%nat -> word (value l)).
  { clear. intros l H L. assert (B : forall l x, Forall is_byte l -> 0 <= x -> 0 <= foldl (fun x b => 256 * x + b) x l < (x + 1) * 256^Z.of_nat (length l)).
    { clear. induction l as [|b l IH]; intros x H Hx; [cbn; lia|]. apply Forall_cons in H as [Hb H]. unfold is_byte in Hb. cbn [foldl length]. destruct (IH (256 * x + b) H ltac:(lia)) as [I1 I2]. split; [exact I1|]. eapply Z.lt_le_trans; [exact I2|].
      rewrite Nat2Z.inj_succ, Z.pow_succ_r by lia. assert (0 < 256^Z.of_nat (length l)) by (apply Z.pow_pos_nonneg; lia). nia. }
    destruct (B l 0 H ltac:(lia)) as [B1 B2]. split; [exact B1|]. eapply Z.lt_le_trans; [exact B2|]. rewrite Z.mul_1_l. change (2^32) with (256^4). apply Z.pow_le_mono_r; lia. }
  apply G; [apply Forall_take, H|]. rewrite take_length. lia.
Qed.
(** *** the schedule *)
Lemma schedule_spec n : forall w, (16 <= length w)%nat -> length (schedule n w) = (length w + n)%nat /\
  (forall t, (t < length w)%nat -> nth t (schedule n w) 0 = nth t w 0) /\
  forall t, (length w <= t < length w + n)%nat -> let W := fun t => nth t (schedule n w) 0 in
    W t = u32 (sigma 17 19 10 true (W (t - 2)%nat) + W (t - 7)%nat + sigma 7 18 3 true (W (t - 15)%nat) + W (t - 16)%nat).
Proof.
  induction n as [|n IH]; intros w Hw; [cbn [schedule]; split; [lia|]; split; [reflexivity|lia]|]. cbn [schedule].
  match goal with |- context [schedule n (w ++ [?x])] => set (v := x) end. destruct (IH (w ++ [v])) as (I1 & I2 & I3); [rewrite app_length; lia|]. rewrite app_length in *. cbn [length] in *. split; [lia|].
  assert (I2' : forall t, (t < length w)%nat -> nth t (schedule n (w ++ [v])) 0 = nth t w 0) by (intros t Ht; rewrite I2 by lia; apply app_nth1; lia). split; [exact I2'|].
  cbn zeta in *. intros t Ht. destruct (Nat.eq_dec t (length w)) as [->|N]; [|apply I3; lia]. rewrite (I2 (length w)) by lia. rewrite app_nth2 by lia. rewrite Nat.sub_diag. cbn [nth]. rewrite !I2' by lia. reflexivity.
Qed.
Lemma schedule_word n w : (16 <= length w)%nat -> (forall t, (t < length w)%nat -> word (nth t w 0)) -> forall t, (t < length w + n)%nat -> word (nth t (schedule n w) 0).
Proof.
  intros Hw H t Ht. destruct (schedule_spec n w Hw) as (_ & S2 & S3). destruct (Nat.lt_ge_cases t (length w)); [rewrite S2 by lia; apply H; lia|]. rewrite S3 by lia. apply u32_word.
Qed.
(** *** one block *)
Ltac conjs := repeat match goal with |- _ /\ _ => split end.
Definition st : Type := Z * Z * Z * Z * Z * Z * Z * Z.
Definition fst8 (s : st) : Z := let '(a, _, _, _, _, _, _, _) := s in a.
Definition fifth (s : st) : Z := let '(_, _, _, _, e, _, _, _) := s in e.
Lemma compress_ok h b : length h = 8%nat -> Forall word h -> length b = 64%nat -> Forall is_byte b ->
  compress (fun t => nth t sha_k 0) h b (sha_block h b) /\ Forall word (sha_block h b) /\ length (sha_block h b) = 8%nat.
Proof.
  intros Lh Wh Lb Hb. destruct h as [|a0 [|b0 [|c0 [|d0 [|e0 [|f0 [|g0 [|h0 [|? ?]]]]]]]]]; try discriminate. clear Lh.
  assert (Wh' : word a0 /\ word b0 /\ word c0 /\ word d0 /\ word e0 /\ word f0 /\ word g0 /\ word h0) by (repeat (apply Forall_cons in Wh as [? Wh]); auto 10). destruct Wh' as (Wa & Wb & Wc & Wd & We & Wf & Wg & Whh).
  unfold sha_block. set (w := schedule 48 (words32 16 b)). pose proof (words32_length 16 b) as L16. destruct (schedule_spec 48 (words32 16 b)) as (S1 & S2 & S3); [lia|]. fold w in S1, S2, S3. rewrite L16 in *. change (16 + 48)%nat with 64%nat in *.
  assert (Ww : forall t, (t < 64)%nat -> word (nth t w 0)).
  { intros t Ht. apply schedule_word; [lia| |rewrite L16; exact Ht]. rewrite L16. intros i Hi. rewrite words32_nth by exact Hi. apply value_take4, Forall_drop, Hb. }
  set (kw := zip sha_k w). assert (Lk : length kw = 64%nat) by (unfold kw; rewrite zip_with_length, S1; reflexivity).
  assert (Kn : forall t, (t < 64)%nat -> kw !! t = Some (nth t sha_k 0, nth t w 0)).
  { intros t Ht. unfold kw. rewrite lookup_zip_with. assert (G : forall l : list Z, length l = 64%nat -> l !! t = Some (nth t l 0)).
    { intros l Hl. destruct (l !! t) as [x|] eqn:E; [|apply lookup_ge_None in E; lia]. rewrite (nth_lookup_Some _ _ 0 _ E). reflexivity. }
    rewrite (G sha_k eq_refl), (G w S1). reflexivity. }
  set (s0 := (a0, b0, c0, d0, e0, f0, g0, h0) : st). set (S := fun t => foldl sha_round s0 (take t kw)).
  set (A := fun t => match t with 0 => d0 | 1 => c0 | 2 => b0 | Datatypes.S (Datatypes.S (Datatypes.S t)) => fst8 (S t) end%nat).
  set (E := fun t => match t with 0 => h0 | 1 => g0 | 2 => f0 | Datatypes.S (Datatypes.S (Datatypes.S t)) => fifth (S t) end%nat).
  assert (Step : forall t, (t < 64)%nat -> S (Datatypes.S t) = sha_round (S t) (nth t sha_k 0, nth t w 0)).
  { intros t Ht. unfold S. rewrite (take_S_r _ _ _ (Kn t Ht)), foldl_app. reflexivity. }
  assert (A0 : A 0%nat = d0) by reflexivity. assert (A1 : A 1%nat = c0) by reflexivity. assert (A2 : A 2%nat = b0) by reflexivity. assert (A3 : forall t, A (t + 3)%nat = fst8 (S t)) by (intros t; rewrite Nat.add_comm; reflexivity).
  assert (E0 : E 0%nat = h0) by reflexivity. assert (E1 : E 1%nat = g0) by reflexivity. assert (E2 : E 2%nat = f0) by reflexivity. assert (E3 : forall t, E (t + 3)%nat = fifth (S t)) by (intros t; rewrite Nat.add_comm; reflexivity).
  assert (S0 : S 0%nat = s0) by reflexivity. assert (Ef : foldl sha_round s0 kw = S 64%nat) by (unfold S; rewrite take_ge by lia; reflexivity).
  clearbody A E S. clearbody kw. clearbody w. cbn zeta in S3. assert (Ss : s0 = (a0, b0, c0, d0, e0, f0, g0, h0)) by reflexivity.
  assert (Inv : forall t, (t <= 64)%nat -> S t = (A (t + 3), A (t + 2), A (t + 1), A t, E (t + 3), E (t + 2), E (t + 1), E t)%nat /\ word (A t) /\ word (A (t + 1)%nat) /\ word (A (t + 2)%nat) /\ word (A (t + 3)%nat) /\ word (E t) /\ word (E (t + 1)%nat) /\ word (E (t + 2)%nat) /\ word (E (t + 3)%nat)).
  { induction t as [|t IH]; intros Ht.
    - rewrite A3, E3, S0, Ss. change (0 + 1)%nat with 1%nat. change (0 + 2)%nat with 2%nat. rewrite A0, A1, A2, E0, E1, E2. split; [reflexivity|]. cbn [fst8 fifth]. conjs; assumption.
    - destruct (IH ltac:(lia)) as (I0 & I1 & I2 & I3 & I4 & I5 & I6 & I7 & I8). rewrite A3, E3, (Step t ltac:(lia)), I0. cbn [sha_round fst8 fifth fst snd]. replace (Datatypes.S t + 2)%nat with (t + 3)%nat by lia. replace (Datatypes.S t + 1)%nat with (t + 2)%nat by lia. replace (Datatypes.S t) with (t + 1)%nat by lia.
      split; [reflexivity|]. conjs; first [assumption|apply u32_word]. }
  destruct (Inv 64%nat ltac:(lia)) as (I0 & _). change (64 + 3)%nat with 67%nat in I0. change (64 + 2)%nat with 66%nat in I0. change (64 + 1)%nat with 65%nat in I0.
  rewrite Ef, I0.
  clear Ef I0. split; [|split; [|reflexivity]].
  - exists (fun t => nth t w 0), A, E. split; [intros t Ht; rewrite S2, words32_nth by lia; reflexivity|]. split.
    { intros t Ht. rewrite S3 by lia. cbn zeta. unfold u32. rewrite (proj1 (sigma_words _ (Ww (t - 2)%nat ltac:(lia)))), (proj1 (proj2 (sigma_words _ (Ww (t - 15)%nat ltac:(lia))))). reflexivity. }
    split; [rewrite (A3 0%nat : A 3%nat = _), (E3 0%nat : E 3%nat = _), A0, A1, A2, E0, E1, E2, S0; reflexivity|]. split; [|reflexivity]. intros t Ht. cbn zeta. destruct (Inv t ltac:(lia)) as (J0 & J1 & J2 & J3 & J4 & J5 & J6 & J7 & J8).
    replace (t + 4)%nat with (Datatypes.S t + 3)%nat by lia. rewrite A3, E3, (Step t Ht), J0. cbn [sha_round fst8 fifth fst snd].
    rewrite ch_bits, maj_bits by assumption. rewrite (proj1 (proj2 (proj2 (sigma_words _ J8)))), (proj2 (proj2 (proj2 (sigma_words _ J4)))). unfold u32. rewrite Z.add_mod_idemp_r, <- Z.add_mod by lia. split; [reflexivity|]. f_equal. lia.
  - cbn [map]. repeat (apply Forall_cons; split; [apply u32_word|]). constructor.
Qed.

(** *** the constants *)
Definition primeb (n : Z) : bool := (1 <? n) && forallb (fun d => negb (n mod d =? 0)) (seqZ 2 (n - 2)).
Lemma primeb_prime n : primeb n = true <-> prime n.
Proof.
  rewrite <- prime_alt. unfold primeb, prime'. rewrite andb_true_iff, Z.ltb_lt, forallb_forall. split; intros [H1 H2]; (split; [exact H1|]).
  - intros d Hd D. specialize (H2 d). rewrite <- elem_of_list_In, elem_of_seqZ in H2. specialize (H2 ltac:(lia)). apply Z.mod_divide in D; [|lia]. rewrite D in H2. discriminate.
  - intros d Hd. rewrite <- elem_of_list_In, elem_of_seqZ in Hd. destruct (Z.eqb_spec (n mod d) 0) as [E|]; [|reflexivity]. apply Z.mod_divide in E; [|lia]. destruct (H2 d ltac:(lia) E).
Qed.
Definition primes : list Z := List.filter primeb (seqZ 0 312).
Lemma primes_nth t p : primes !! t = Some p -> nth_prime t p.
Proof.
  intros H. assert (Hp : In p primes) by (apply elem_of_list_In, elem_of_list_lookup; eauto). apply filter_In in Hp as [Hs Hp]. rewrite <- elem_of_list_In, elem_of_seqZ in Hs.
  assert (E : primes = List.filter primeb (seqZ 0 p) ++ p :: List.filter primeb (seqZ (Z.succ p) (311 - p))).
  { unfold primes. replace 312 with (p + (312 - p)) by lia. rewrite seqZ_app, List.filter_app by lia. f_equal. rewrite Z.add_0_l, seqZ_cons by lia. cbn [List.filter]. rewrite Hp. do 3 f_equal. lia. }
  assert (N : NoDup primes) by apply NoDup_ListNoDup, List.NoDup_filter, NoDup_ListNoDup, NoDup_seqZ.
  assert (L : primes !! length (List.filter primeb (seqZ 0 p)) = Some p) by (rewrite E at 1; rewrite lookup_app_r, Nat.sub_diag by lia; reflexivity).
  pose proof (NoDup_lookup _ _ _ _ N H L) as ->. split; [apply primeb_prime, Hp|]. exists (List.filter primeb (seqZ 0 p)). split; [apply NoDup_ListNoDup, List.NoDup_filter, NoDup_ListNoDup, NoDup_seqZ|]. split; [reflexivity|].
  intros q. rewrite elem_of_list_In, filter_In, primeb_prime, <- elem_of_list_In, elem_of_seqZ. split; [intros [? ?]; split; [assumption|lia]|]. intros [P Lt]. split; [|exact P]. pose proof (prime_ge_2 q P). lia.
Qed.
Definition first_primes : list Z := [2; 3; 5; 7; 11; 13; 17; 19; 23; 29; 31; 37; 41; 43; 47; 53; 59; 61; 67; 71; 73; 79; 83; 89; 97; 101; 103; 107; 109; 113; 127; 131; 137; 139; 149; 151; 157; 163; 167; 173; 179; 181; 191; 193; 197; 199; 211; 223; 227; 229; 233; 239; 241; 251; 257; 263; 269; 271; 277; 281; 283; 293; 307; 311].
Lemma primes_first : primes = first_primes.
Proof. vm_compute. reflexivity. Qed.
Definition const_ok (k : Z) (t : nat) (x : Z) : bool := match first_primes !! t with Some q =>
  existsb (fun f => let r := f * 2^32 + x in (0 <=? x) && (x <? 2^32) && (r^k <=? q * 2^(32 * k)) && (q * 2^(32 * k) <? (r + 1)^k)) (seqZ 0 20) | None => false end.
Lemma const_ok_spec k t x : const_ok k t x = true -> exists q, nth_prime t q /\ root_bits k q x.
Proof.
  unfold const_ok. destruct (first_primes !! t) as [q|] eqn:E; [|discriminate]. intros Hr. exists q. split; [apply primes_nth; rewrite primes_first; exact E|].
  apply existsb_exists in Hr as (f & Hf & Hr). rewrite <- elem_of_list_In, elem_of_seqZ in Hf. cbn zeta in Hr. rewrite !andb_true_iff, !Z.leb_le, !Z.ltb_lt in Hr. destruct Hr as [[[X1 X2] R1] R2]. exists (f * 2^32 + x). split; [lia|]. split; [lia|]. rewrite Z.add_comm, Z.mod_add, Z.mod_small by lia. reflexivity.
Qed.
Lemma all_nth (f : nat -> Z -> bool) l : forallb id (imap f l) = true -> forall i, (i < length l)%nat -> f i (nth i l 0) = true.
Proof.
  intros H i Hi. rewrite forallb_forall in H. destruct (l !! i) as [x|] eqn:E; [|apply lookup_ge_None in E; lia]. rewrite (nth_lookup_Some _ _ 0 _ E). apply (H (f i x)). apply elem_of_list_In, elem_of_list_lookup. exists i. rewrite list_lookup_imap, E. reflexivity.
Qed.
Lemma sha_k_ok t : (t < 64)%nat -> exists q, nth_prime t q /\ root_bits 3 q (nth t sha_k 0).
Proof. intros H. apply const_ok_spec. refine (all_nth (const_ok 3) sha_k _ t H). vm_cast_no_check (eq_refl true). Qed.
Lemma sha_init_ok t : (t < 8)%nat -> exists q, nth_prime t q /\ root_bits 2 q (nth t sha_init 0).
Proof. intros H. apply const_ok_spec. refine (all_nth (const_ok 2) sha_init _ t H). vm_cast_no_check (eq_refl true). Qed.
(** *** the message *)
Lemma pad_ok m : Forall is_byte m -> padded m (sha_pad m) /\ Forall is_byte (sha_pad m).
Proof.
  intros Hm. unfold sha_pad. set (n := length m). destruct (be_ok 8 (Z.of_nat n * 8)) as (B1 & B2 & B3). set (z := if (n mod 64 <? 56)%nat then _ else _). pose proof (Nat.mod_upper_bound n 64 ltac:(lia)) as Mb. pose proof (Nat.div_mod n 64 ltac:(lia)) as Dm. split.
  - exists z, (be 8 (Z.of_nat n * 8)). split; [reflexivity|]. split; [unfold z; destruct (Nat.ltb_spec (n mod 64) 56); lia|]. split; [|split; [exact B1|split; [exact B2|rewrite B3; f_equal; lia]]].
    rewrite !app_length, repeat_length, B1. fold n. cbn [length]. unfold z. destruct (Nat.ltb_spec (n mod 64) 56) as [L|L]; [exists (Z.of_nat (n / 64) + 1)|exists (Z.of_nat (n / 64) + 2)]; lia.
  - rewrite !Forall_app. split; [exact Hm|]. split; [constructor; [unfold is_byte; lia|constructor]|]. split; [|exact B2]. apply Forall_forall. intros x Hx. apply elem_of_list_In, repeat_spec in Hx. subst x. unfold is_byte. lia.
Qed.
Lemma blocks_S n : forall h m, sha_blocks (S n) h m = sha_block (sha_blocks n h m) (take 64 (drop (64 * n) m)).
Proof.
  induction n as [|n IH]; intros h m; [reflexivity|]. change (sha_blocks (S (S n)) h m) with (sha_blocks (S n) (sha_block h (take 64 m)) (drop 64 m)). rewrite IH, drop_drop. change (sha_blocks (S n) h m) with (sha_blocks n (sha_block h (take 64 m)) (drop 64 m)). replace (64 * S n)%nat with (64 + 64 * n)%nat by lia. reflexivity.
Qed.
Lemma concat_be4_nth l : Forall word l -> forall i, (i < length l)%nat -> value (take 4 (drop (4 * i) (concat (map (be 4) l)))) = nth i l 0.
Proof.
  induction 1 as [|x l Hx Hl IH]; intros i Hi; [cbn in Hi; lia|]. destruct (be_ok 4 x) as (B1 & _ & B3). change (concat (map (be 4) (x :: l))) with (be 4 x ++ concat (map (be 4) l)). destruct i as [|i].
  - rewrite Nat.mul_0_r, drop_0. cbn [nth]. rewrite <- B1 at 1. rewrite take_app, B3. apply Z.mod_small. exact Hx.
  - cbn [nth]. rewrite <- IH by (cbn in Hi; lia). replace (4 * S i)%nat with (4 + 4 * i)%nat by lia. rewrite <- drop_drop. rewrite (drop_app_alt (be 4 x)) by lia. reflexivity.
Qed.
Lemma concat_be4_ok l : length (concat (map (be 4) l)) = (4 * length l)%nat /\ Forall is_byte (concat (map (be 4) l)).
Proof.
  induction l as [|x l [IH1 IH2]]; [split; [reflexivity|constructor]|]. destruct (be_ok 4 x) as (B1 & B2 & _). change (concat (map (be 4) (x :: l))) with (be 4 x ++ concat (map (be 4) l)). rewrite app_length, B1, IH1. split; [cbn [length]; lia|]. apply Forall_app. auto.
Qed.

(** *** C162 *)
Theorem sha256_fips m : Forall is_byte m -> is_sha256 m (sha256_sum m).
Proof.
  intros Hm. destruct (pad_ok m Hm) as [P Pb]. unfold sha256_sum. set (p := sha_pad m) in *. cbn zeta. set (n := (length p / 64)%nat). assert (Lp : length p = (64 * n)%nat).
  { destruct P as (z & len & _ & _ & [c Hc] & _). unfold n. assert (D : (64 | length p)%nat) by (exists (Z.to_nat c); lia). destruct D as [k Hk]. rewrite Hk, Nat.div_mul by lia. lia. }
  assert (I0 : Forall word sha_init) by (apply (bool_decide_unpack _); vm_compute; exact I).
  assert (Inv : forall i, (i <= n)%nat -> length (sha_blocks i sha_init p) = 8%nat /\ Forall word (sha_blocks i sha_init p)).
  { induction i as [|i IH]; intros Hi; [split; [reflexivity|exact I0]|]. destruct (IH ltac:(lia)) as [L W]. rewrite blocks_S. edestruct compress_ok as (_ & C2 & C3); [exact L|exact W| | |split; [exact C3|exact C2]]; [rewrite take_length, drop_length; lia|apply Forall_take, Forall_drop, Pb]. }
  destruct (Inv n ltac:(lia)) as [Ln Wn]. destruct (concat_be4_ok (sha_blocks n sha_init p)) as [O1 O2].
  exists (fun t => nth t sha_k 0), p, n, (fun i => sha_blocks i sha_init p). split; [exact sha_k_ok|]. split; [exact P|]. split; [exact Lp|]. split; [reflexivity|]. split; [exact sha_init_ok|]. split.
  - intros i Hi. rewrite blocks_S. destruct (Inv i ltac:(lia)) as [L W]. apply compress_ok; [exact L|exact W|rewrite take_length, drop_length; lia|apply Forall_take, Forall_drop, Pb].
  - split; [rewrite O1, Ln; reflexivity|]. split; [exact O2|]. intros i Hi. apply concat_be4_nth; [exact Wn|lia].
Qed.
(** *** there is no other digest *)
Lemma nth_prime_unique i p q : nth_prime i p -> nth_prime i q -> p = q.
Proof.
  assert (G : forall p q, nth_prime i p -> nth_prime i q -> ~ p < q).
  { clear. intros p q (Pp & l & Nl & Ll & Hl) (Pq & l' & Nl' & Ll' & Hl') L. assert (I : (length (p :: l) <= length l')%nat); [|cbn in I; lia]. apply submseteq_length, NoDup_submseteq.
    - constructor; [|exact Nl]. intros E. apply Hl in E. lia.
    - intros x [->|Hx]%elem_of_cons; apply Hl'; [auto|]. apply Hl in Hx. split; [apply Hx|]. lia. }
  intros Hp Hq. pose proof (G p q Hp Hq). pose proof (G q p Hq Hp). lia.
Qed.
Lemma root_bits_unique k p x y : 0 < k -> root_bits k p x -> root_bits k p y -> x = y.
Proof.
  intros Hk (r & R0 & R1 & ->) (s & S0 & S1 & ->). assert (G : forall a b, 0 <= a -> 0 <= b -> a^k <= p * 2^(32 * k) -> p * 2^(32 * k) < (b + 1)^k -> a <= b).
  { intros a b Ha Hb L1 L2. destruct (Z.le_gt_cases a b) as [|C]; [assumption|]. pose proof (Z.pow_le_mono_l (b + 1) a k ltac:(lia)). lia. }
  f_equal. apply Z.le_antisymm; apply G; lia.
Qed.
Lemma value_app l l' : value (l ++ l') = value l * 256^Z.of_nat (length l') + value l'.
Proof.
  induction l' as [|b l' IH] using rev_ind; [rewrite app_nil_r; cbn; lia|]. rewrite app_assoc, !value_snoc, IH, app_length. cbn [length]. rewrite Nat2Z.inj_add, Z.pow_add_r by lia. change (256^Z.of_nat 1) with 256. lia.
Qed.
Lemma value_inj l l' : Forall is_byte l -> Forall is_byte l' -> length l = length l' -> value l = value l' -> l = l'.
Proof.
  revert l'. induction l as [|b l IH] using rev_ind; intros l' H H' L V.
  - destruct l'; [reflexivity|discriminate].
  - destruct l' as [|b' l' _] using rev_ind; [rewrite app_length in L; cbn in L; lia|]. rewrite !app_length in L. cbn in L. rewrite !value_snoc in V. apply Forall_app in H as [H Hb]. apply Forall_app in H' as [H' Hb']. apply Forall_cons in Hb as [Hb _]. apply Forall_cons in Hb' as [Hb' _]. unfold is_byte in Hb, Hb'.
    assert (b = b') by lia. subst b'. rewrite (IH l' H H'); [reflexivity|lia|lia].
Qed.
Lemma padded_unique m p q : padded m p -> padded m q -> p = q.
Proof.
  intros (z & len & -> & Hz & [c Hc] & L & B & V) (z' & len' & -> & Hz' & [c' Hc'] & L' & B' & V'). rewrite (value_inj len len' B B' ltac:(lia) ltac:(lia)). rewrite !app_length, !repeat_length, ?L, ?L' in *. cbn [length] in *. replace z' with z by lia. reflexivity.
Qed.
Lemma compress_unique K K' H B H1 H2 : (forall t, (t < 64)%nat -> K t = K' t) -> compress K H B H1 -> compress K' H B H2 -> H1 = H2.
Proof.
  intros HK (W & A & E & W1 & W2 & Hs & R & ->) (W' & A' & E' & W1' & W2' & Hs' & R' & ->). 
  assert (HW : forall n t, (t < n)%nat -> (t < 64)%nat -> W t = W' t).
  { induction n as [|n IH]; intros t Ht H64; [lia|]. destruct (Nat.lt_ge_cases t 16); [rewrite W1, W1' by lia; reflexivity|]. rewrite W2, W2' by lia. rewrite (IH (t - 2)%nat), (IH (t - 7)%nat), (IH (t - 15)%nat), (IH (t - 16)%nat) by lia. reflexivity. }
  rewrite Hs in Hs'. injection Hs'. intros. assert (I : forall t, (t <= 64)%nat -> A t = A' t /\ A (t + 1)%nat = A' (t + 1)%nat /\ A (t + 2)%nat = A' (t + 2)%nat /\ A (t + 3)%nat = A' (t + 3)%nat /\ E t = E' t /\ E (t + 1)%nat = E' (t + 1)%nat /\ E (t + 2)%nat = E' (t + 2)%nat /\ E (t + 3)%nat = E' (t + 3)%nat).
  { induction t as [|t IH]; intros Ht; [conjs; assumption|]. destruct (IH ltac:(lia)) as (I1 & I2 & I3 & I4 & I5 & I6 & I7 & I8). destruct (R t ltac:(lia)) as [R1 R2]. destruct (R' t ltac:(lia)) as [R1' R2'].
    replace (S t + 3)%nat with (t + 4)%nat by lia. replace (S t + 2)%nat with (t + 3)%nat by lia. replace (S t + 1)%nat with (t + 2)%nat by lia. replace (S t) with (t + 1)%nat by lia.
    rewrite R1, R1', R2, R2', I1, I2, I3, I4, I5, I6, I7, I8, (HK t), (HW 64%nat t) by lia. conjs; reflexivity. }
  destruct (I 64%nat ltac:(lia)) as (I1 & I2 & I3 & I4 & I5 & I6 & I7 & I8). change (64 + 1)%nat with 65%nat in *. change (64 + 2)%nat with 66%nat in *. change (64 + 3)%nat with 67%nat in *. rewrite I1, I2, I3, I4, I5, I6, I7, I8. reflexivity.
Qed.
Lemma chunks_ext k n : forall d e : bytes, Forall is_byte d -> Forall is_byte e -> length d = (k * n)%nat -> length e = (k * n)%nat -> (forall i, (i < n)%nat -> value (take k (drop (k * i) d)) = value (take k (drop (k * i) e))) -> d = e.
Proof.
  induction n as [|n IH]; intros d e Hd He Ld Le H.
  - rewrite Nat.mul_0_r in *. destruct d, e; try discriminate. reflexivity.
  - rewrite <- (take_drop k d), <- (take_drop k e). f_equal.
    + apply value_inj; [apply Forall_take, Hd|apply Forall_take, He|rewrite !take_length; lia|]. specialize (H 0%nat ltac:(lia)). rewrite Nat.mul_0_r, !drop_0 in H. exact H.
    + apply IH; [apply Forall_drop, Hd|apply Forall_drop, He|rewrite drop_length; lia|rewrite drop_length; lia|]. intros i Hi. rewrite !drop_drop. specialize (H (S i) ltac:(lia)). replace (k * S i)%nat with (k + k * i)%nat in H by lia. exact H.
Qed.
Lemma is_sha256_unique m d e : is_sha256 m d -> is_sha256 m e -> d = e.
Proof.
  intros (K & p & n & H & HK & P & Lp & L0 & I0 & C & Ld & Bd & Vd) (K' & p' & n' & H' & HK' & P' & Lp' & L0' & I0' & C' & Le & Be & Ve).
  assert (p' = p) as -> by (apply (padded_unique m); assumption). assert (n' = n) as -> by lia. assert (EK : forall t, (t < 64)%nat -> K t = K' t).
  { intros t Ht. destruct (HK t Ht) as (q & Q1 & Q2). destruct (HK' t Ht) as (q' & Q1' & Q2'). rewrite (nth_prime_unique t q' q Q1' Q1) in Q2'. apply (root_bits_unique 3 q); [lia|assumption|assumption]. }
  assert (E0 : H 0%nat = H' 0%nat).
  { apply (nth_ext _ _ 0 0); [lia|]. rewrite L0. intros i Hi. destruct (I0 i Hi) as (q & Q1 & Q2). destruct (I0' i Hi) as (q' & Q1' & Q2'). rewrite (nth_prime_unique i q' q Q1' Q1) in Q2'. apply (root_bits_unique 2 q); [lia|assumption|assumption]. }
  assert (EH : forall i, (i <= n)%nat -> H i = H' i).
  { induction i as [|i IH]; intros Hi; [exact E0|]. specialize (C i ltac:(lia)). specialize (C' i ltac:(lia)). rewrite <- IH in C' by lia. apply (compress_unique _ _ _ _ _ _ EK C C'). }
  apply (chunks_ext 4 8); [assumption|assumption|lia|lia|]. intros i Hi. rewrite Vd, Ve, (EH n) by lia. reflexivity.
Qed.
Theorem sha256_fips_exact m d : Forall is_byte m -> is_sha256 m d <-> d = sha256_sum m.
Proof. intros Hm. split; [|intros ->; apply sha256_fips, Hm]. intros H. apply (is_sha256_unique m); [exact H|apply sha256_fips, Hm]. Qed.
(** the digest of "abc", and the hypothesis *)
Example sha256_fips_case : Forall is_byte [97; 98; 99] /\ is_sha256 [97; 98; 99] (be 32 0xba7816bf8f01cfea414140de5dae2223b00361a396177a9cb410ff61f20015ad) /\ ~ is_sha256 [97; 98; 99] (be 32 0xba7816bf8f01cfea414140de5dae2223b00361a396177a9cb410ff61f20015ae).
Proof.
  assert (H : Forall is_byte [97; 98; 99]) by (repeat constructor; unfold is_byte; lia). split; [exact H|]. rewrite !sha256_fips_exact by exact H. split; [vm_compute; reflexivity|]. intros E. vm_compute in E. discriminate.
Qed.
Print Assumptions sha256_fips.
Print Assumptions sha256_fips_exact.
