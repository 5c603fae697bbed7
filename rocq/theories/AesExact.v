(** C116: what the helpers of cryptox/aesx write, byte by byte *)
From Verif Require Import Base PassModel PassProofs AesModel AesProps.
Local Open Scope Z.

Lemma unbe_go_snoc l : forall acc b, unbe_go acc (l ++ [b]) = unbe_go acc l * 256 + b.
Proof. induction l as [|x l IH]; intros acc b; cbn [unbe_go app]; [reflexivity|apply IH]. Qed.
Lemma unbe_be n : forall v, unbe (be n v) = v mod 256 ^ Z.of_nat n.
Proof.
  unfold unbe. induction n as [|n IH]; intros v; [cbn; rewrite Z.mod_1_r; reflexivity|].
  cbn [be]. rewrite unbe_go_snoc, IH. rewrite Nat2Z.inj_succ, Z.pow_succ_r by lia. rewrite Z.rem_mul_r by (try lia; apply Z.pow_pos_nonneg; lia). lia.
Qed.
Lemma blocks_lookup blk n j : (forall i, length (blk i) = 16%nat) -> (j < 16 * n)%nat -> blocks blk n !! j = blk (j / 16)%nat !! (j mod 16)%nat.
Proof.
  intros H. induction n as [|n IH]; intros Hj; [lia|]. cbn [blocks]. destruct (decide (j < 16 * n)%nat) as [L|L].
  - rewrite lookup_app_l by (rewrite blocks_length by exact H; exact L). apply IH, L.
  - rewrite lookup_app_r by (rewrite blocks_length by exact H; lia). rewrite blocks_length by exact H.
    assert (E : j = (16 * n + (j - 16 * n))%nat) by lia. assert (Hs : (j - 16 * n < 16)%nat) by lia.
    assert (Hq : (j / 16 = n)%nat) by (symmetry; apply (Nat.div_unique j 16 n (j - 16 * n)); lia).
    assert (Hr : (j mod 16 = j - 16 * n)%nat) by (symmetry; apply (Nat.mod_unique j 16 n (j - 16 * n)); lia).
    rewrite Hq, Hr. reflexivity.
Qed.
Lemma xks_lookup blk (src : bytes) j x : (forall i, length (blk i) = 16%nat) -> src !! j = Some x ->
  exists y, blk (j / 16)%nat !! (j mod 16)%nat = Some y /\ xor_key_stream blk src !! j = Some (Z.lxor x y).
Proof.
  intros H Hj. pose proof (lookup_lt_Some _ _ _ Hj) as L. pose proof (Nat.mod_upper_bound j 16 ltac:(lia)).
  destruct (lookup_lt_is_Some_2 (blk (j / 16)%nat) (j mod 16)%nat) as [y Ey]; [rewrite H; lia|]. exists y. split; [exact Ey|].
  unfold xor_key_stream, xor. rewrite lookup_zip_with, Hj. cbn -[Nat.div blocks take]. rewrite lookup_take by exact L. rewrite blocks_lookup; [rewrite Ey; reflexivity|exact H|].
  pose proof (Nat.div_mod (length src) 16 ltac:(lia)). pose proof (Nat.mod_upper_bound (length src) 16 ltac:(lia)). lia.
Qed.
(** the i-th block of 16 bytes *)
Definition block (l : bytes) (i : nat) : bytes := take 16 (drop (16 * i) l).
Lemma xks_block blk (src : bytes) i : (forall i, length (blk i) = 16%nat) -> (16 * (i + 1) <= length src)%nat ->
  block (xor_key_stream blk src) i = xor (block src i) (blk i).
Proof.
  intros H L. pose proof (xks_length blk src H) as Lx. apply list_eq. intros j. destruct (decide (j < 16)%nat) as [Lj|Lj].
  - unfold block. rewrite lookup_take, lookup_drop by exact Lj. destruct (lookup_lt_is_Some_2 src (16 * i + j)) as [x Ex]; [lia|].
    destruct (xks_lookup blk src (16 * i + j) x H Ex) as (y & Ey & ->).
    assert (Hq : ((16 * i + j) / 16 = i)%nat) by (symmetry; apply (Nat.div_unique _ 16 i j); lia).
    assert (Hr : ((16 * i + j) mod 16 = j)%nat) by (symmetry; apply (Nat.mod_unique _ 16 i j); lia).
    rewrite Hq, Hr in Ey. unfold xor. rewrite lookup_zip_with, lookup_take, lookup_drop, Ex by exact Lj. cbn. rewrite Ey. reflexivity.
  - rewrite !lookup_ge_None_2; [reflexivity| |].
    + unfold xor. rewrite zip_with_length, H. lia.
    + unfold block. rewrite take_length. lia.
Qed.
Lemma xor_inj_r (p a b : bytes) : length p = length a -> length p = length b -> xor p a = xor p b -> a = b.
Proof.
  unfold xor. revert a b. induction p as [|x p IH]; intros [|y a] [|z b] La Lb E; try discriminate; [reflexivity|]. cbn [zip_with] in E. injection E as E1 E2.
  f_equal; [|apply IH; auto]. rewrite <- (Z.lxor_0_l y), <- (Z.lxor_nilpotent x), Z.lxor_assoc, E1, <- Z.lxor_assoc, Z.lxor_nilpotent, Z.lxor_0_l. reflexivity.
Qed.

Section aes.
Context (sha256 : bytes -> bytes) (enc dec : bytes -> bytes -> bytes) (gtag : bytes -> bytes -> bytes -> bytes) (rand : nat -> option bytes).
Context (K : aes_contract sha256 enc dec gtag rand).
Notation eCBC := (encrypt_cbc sha256 enc rand).
Notation eCTR := (encrypt_ctr sha256 enc rand).
Notation eGCM := (encrypt_gcm sha256 enc gtag rand).
Notation ctr_len := (ctr_block_length sha256 enc dec gtag rand K).
Notation gcm_len := (gcm_block_length sha256 enc dec gtag rand K).

(** CTR: byte j of the data is xored with byte j mod 16 of the cipher applied to the big-endian
    128-bit number iv + j/16, which wraps around *)
Theorem ctr_exact data key iv : rand 16%nat = Some iv ->
  exists c, eCTR data key = Ret (inl (iv ++ c)) /\ length c = length data /\
    forall j x, data !! j = Some x -> exists ctr y, length ctr = 16%nat /\ unbe ctr = (unbe iv + Z.of_nat (j / 16)) mod 2^128 /\ Forall is_byte ctr /\
      enc (sha256 key) ctr !! (j mod 16)%nat = Some y /\ c !! j = Some (Z.lxor x y).
Proof.
  intros R. unfold encrypt_ctr. rewrite (cipher_ok sha256 enc dec gtag rand K), R. eexists. split; [reflexivity|]. split; [apply xks_length, ctr_len|].
  intros j x Hj. destruct (xks_lookup (ctr_block enc (sha256 key) iv) data j x (ctr_len _ _) Hj) as (y & Ey & E).
  exists (be 16 ((unbe iv + Z.of_nat (j / 16)) mod 2^128)), y. split; [apply be_length|]. split; [rewrite unbe_be; apply Zmod_mod|]. split; [apply be_bytes|]. auto.
Qed.
(** so equal blocks of data at different places are encrypted differently *)
Theorem ctr_blocks_differ data key iv i j : rand 16%nat = Some iv -> i <> j ->
  (16 * (i + 1) <= length data)%nat -> (16 * (j + 1) <= length data)%nat -> blen data < 2^132 -> block data i = block data j ->
  exists c, eCTR data key = Ret (inl (iv ++ c)) /\ block c i <> block c j.
Proof.
  intros R Hij Hi Hj HL EB. unfold encrypt_ctr. rewrite (cipher_ok sha256 enc dec gtag rand K), R. eexists. split; [reflexivity|].
  rewrite !xks_block by (first [exact (ctr_len _ _)|assumption]). rewrite EB. intros E.
  assert (Lb : length (block data j) = 16%nat) by (unfold block; rewrite take_length, drop_length; lia).
  apply xor_inj_r in E; [|rewrite ctr_len; exact Lb|rewrite ctr_len; exact Lb].
  unfold ctr_block in E. apply (f_equal (dec (sha256 key))) in E. pose proof K as (_ & H & _).
  destruct (H (sha256 key) _ (be_length 16 ((unbe iv + Z.of_nat i) mod 2^128))) as (_ & _ & D1 & _). destruct (H (sha256 key) _ (be_length 16 ((unbe iv + Z.of_nat j) mod 2^128))) as (_ & _ & D2 & _).
  rewrite D1, D2 in E. apply (f_equal unbe) in E. rewrite !unbe_be in E. change (256 ^ Z.of_nat 16) with (2^128) in E. rewrite !Zmod_mod in E.
  assert (Bi : Z.of_nat i < 2^128) by (unfold blen in HL; change (2^132) with (16 * 2^128) in HL; lia).
  assert (Bj : Z.of_nat j < 2^128) by (unfold blen in HL; change (2^132) with (16 * 2^128) in HL; lia).
  assert (E2 : (Z.of_nat i - Z.of_nat j) mod 2^128 = 0).
  { replace (Z.of_nat i - Z.of_nat j) with ((unbe iv + Z.of_nat i) - (unbe iv + Z.of_nat j)) by lia. rewrite Zminus_mod, E, Z.sub_diag. reflexivity. }
  apply Z.mod_divide in E2; [|lia]. destruct E2 as [q E2]. assert (q = 0) by nia. lia.
Qed.
(** GCM: the same with the 96-bit nonce followed by the 32-bit number 2 + j/16, and the tag of
    nonce and ciphertext at the end; data that Seal accepts never makes the counter wrap *)
Theorem gcm_exact data key nonce : rand 12%nat = Some nonce -> blen data <= gcm_max ->
  exists c, eGCM data key = Ret (inl (nonce ++ c ++ gtag (sha256 key) nonce c)) /\ length c = length data /\
    forall j x, data !! j = Some x -> exists ctr y, length ctr = 4%nat /\ unbe ctr = 2 + Z.of_nat (j / 16) /\ Forall is_byte ctr /\
      enc (sha256 key) (nonce ++ ctr) !! (j mod 16)%nat = Some y /\ c !! j = Some (Z.lxor x y).
Proof.
  intros R M. pose proof K as (_ & _ & _ & Hr). pose proof (Hr _ _ R) as Ln. unfold encrypt_gcm, seal. rewrite (cipher_ok sha256 enc dec gtag rand K), R.
  rewrite bool_decide_true by exact Ln. destruct (Z.ltb_spec gcm_max (blen data)); [lia|]. cbn [rbind]. eexists. split; [reflexivity|].
  split; [apply xks_length; intros; apply gcm_len; exact Ln|].
  intros j x Hj. destruct (xks_lookup (gcm_block enc (sha256 key) nonce) data j x (fun i => gcm_len _ _ i Ln) Hj) as (y & Ey & E).
  pose proof (lookup_lt_Some _ _ _ Hj) as Lj.
  assert (B : Z.of_nat (j / 16) < 2^32 - 2).
  { unfold gcm_max, blen in M. pose proof (Nat.div_mod j 16 ltac:(lia)). lia. }
  exists (be 4 ((2 + Z.of_nat (j / 16)) mod 2^32)), y. split; [apply be_length|].
  split; [rewrite unbe_be; change (256 ^ Z.of_nat 4) with (2^32); rewrite Zmod_mod; apply Z.mod_small; lia|]. split; [apply be_bytes|]. auto.
Qed.
Theorem gcm_blocks_differ data key nonce i j : rand 12%nat = Some nonce -> blen data <= gcm_max -> i <> j ->
  (16 * (i + 1) <= length data)%nat -> (16 * (j + 1) <= length data)%nat -> block data i = block data j ->
  exists c, eGCM data key = Ret (inl (nonce ++ c ++ gtag (sha256 key) nonce c)) /\ block c i <> block c j.
Proof.
  intros R M Hij Hi Hj EB. pose proof K as (_ & H & _ & Hr). pose proof (Hr _ _ R) as Ln. unfold encrypt_gcm, seal. rewrite (cipher_ok sha256 enc dec gtag rand K), R.
  rewrite bool_decide_true by exact Ln. destruct (Z.ltb_spec gcm_max (blen data)); [lia|]. cbn [rbind]. eexists. split; [reflexivity|].
  rewrite !xks_block by (first [exact (fun i => gcm_len _ _ i Ln)|assumption]). rewrite EB. intros E.
  assert (Lb : length (block data j) = 16%nat) by (unfold block; rewrite take_length, drop_length; lia).
  apply xor_inj_r in E; [|rewrite gcm_len by exact Ln; exact Lb|rewrite gcm_len by exact Ln; exact Lb].
  unfold gcm_block in E. apply (f_equal (dec (sha256 key))) in E.
  assert (L4 : forall v, length (nonce ++ be 4 v) = 16%nat) by (intros v; rewrite app_length, be_length, Ln; reflexivity).
  destruct (H (sha256 key) _ (L4 ((2 + Z.of_nat i) mod 2^32))) as (_ & _ & D1 & _). destruct (H (sha256 key) _ (L4 ((2 + Z.of_nat j) mod 2^32))) as (_ & _ & D2 & _).
  rewrite D1, D2 in E. apply app_inv_head in E. apply (f_equal unbe) in E. rewrite !unbe_be in E. change (256 ^ Z.of_nat 4) with (2^32) in E. rewrite !Zmod_mod in E.
  unfold gcm_max, blen in M. rewrite !Z.mod_small in E by lia. lia.
Qed.
(** CBC: block i is the cipher applied to the data block xored with the block before it, and
    the block before the first one is the iv *)
Theorem cbc_exact data key iv : rand 16%nat = Some iv -> (length data mod 16 = 0)%nat ->
  exists c, eCBC data key = Ret (inl (iv ++ c)) /\ length c = length data /\
    forall i, (16 * (i + 1) <= length data)%nat -> block c i = enc (sha256 key) (xor (block data i) (block (iv ++ c) i)).
Proof.
  intros R M. pose proof K as (_ & H & _ & Hr). pose proof (Hr _ _ R) as Li. unfold encrypt_cbc. rewrite (cipher_ok sha256 enc dec gtag rand K), R. unfold crypt_blocks. rewrite M. cbn [Nat.eqb rbind].
  assert (Ld : length data = (16 * (length data / 16))%nat) by (pose proof (Nat.div_mod (length data) 16 ltac:(lia)); lia).
  eexists. split; [reflexivity|]. pose proof (cbc_enc_length sha256 enc dec gtag rand K (sha256 key) _ iv data Li Ld) as Lc. split; [congruence|].
  set (k := sha256 key) in *. remember (length data / 16)%nat as n eqn:En. clear En M R. revert data iv Li Ld Lc.
  induction n as [|n IH]; intros data iv Li Ld Lc i Hi; [lia|]. cbn [cbc_enc].
  assert (L : length (enc k (xor (take 16 data) iv)) = 16%nat) by (apply H; rewrite xor_length; rewrite take_length; lia).
  set (c0 := enc k (xor (take 16 data) iv)) in *.
  destruct i as [|i].
  - unfold block. rewrite !Nat.mul_0_r, !drop_0. rewrite !take_app_alt by lia. reflexivity.
  - unfold block. replace (16 * S i)%nat with (16 + 16 * i)%nat by lia. rewrite <- !drop_drop. rewrite (drop_app_alt c0) by lia. rewrite (drop_app_alt iv) by lia.
    apply (IH (drop 16 data) c0 L); [rewrite drop_length; lia| |rewrite drop_length; lia].
    apply (cbc_enc_length sha256 enc dec gtag rand K); [exact L|rewrite drop_length; lia].
Qed.
End aes.
Example aes_exact_ex : blen (repeat 7 40) <= gcm_max /\ block (repeat 7 40) 0 = block (repeat 7 40) 1 /\
  exists c, encrypt_ctr toy_sha toy_enc toy_rand (repeat 7 40) [9] = Ret (inl c) /\ block c 1 <> block c 2.
Proof. split; [vm_compute; discriminate|]. split; [reflexivity|]. eexists. split; [vm_compute; reflexivity|vm_compute; discriminate]. Qed.
Print Assumptions ctr_exact.
Print Assumptions ctr_blocks_differ.
Print Assumptions gcm_exact.
Print Assumptions gcm_blocks_differ.
Print Assumptions cbc_exact.
