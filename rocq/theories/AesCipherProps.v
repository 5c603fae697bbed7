(** cryptox/aesx on AES-256, SHA-256 and GHASH themselves: the contract that AesProps.v and
    AesExact.v assume is a theorem, and what the GCM tag protects is stated with numbers. *)
From Verif Require Import Base PassModel PassProofs AesModel AesProps AesExact AesCipherModel AesCipherProofs GhashPrimes GhashField.
Local Open Scope Z.

(** *** the contract *)
Lemma is_bytes_spec b : is_bytes b = true <-> Forall is_byte b.
Proof.
  unfold is_bytes. rewrite forallb_forall, Forall_forall. split; intros H x Hx.
  - apply byteb_spec, H, elem_of_list_In, Hx.
  - apply byteb_spec, H, elem_of_list_In, Hx.
Qed.
(** the inverse cipher undoes the cipher and the other way round: for keys of every length,
    in particular 16, 24 and 32 *)
Theorem aes_inverse k b : Forall is_byte k -> length b = 16%nat -> Forall is_byte b ->
  (length (cipher k b) = 16%nat /\ Forall is_byte (cipher k b) /\ inv_cipher k (cipher k b) = b) /\
  (length (inv_cipher k b) = 16%nat /\ Forall is_byte (inv_cipher k b) /\ cipher k (inv_cipher k b) = b).
Proof. intros Hk L F. destruct (cipher_ok_inv k b (round_keys_ok k Hk) (conj L F)) as ([A1 A2] & [B1 B2] & C & D). auto. Qed.
(** different blocks have different encryptions *)
Theorem aes_injective k b b' : Forall is_byte k -> length b = 16%nat -> Forall is_byte b -> length b' = 16%nat -> Forall is_byte b' ->
  cipher k b = cipher k b' -> b = b'.
Proof. intros Hk L F L' F' E. destruct (aes_inverse k b Hk L F) as ((_ & _ & <-) & _). destruct (aes_inverse k b' Hk L' F') as ((_ & _ & <-) & _). rewrite E. reflexivity. Qed.
Lemma enc_block k b : Forall is_byte k -> length b = 16%nat -> Forall is_byte b -> aes_enc k b = cipher k b.
Proof. intros Hk L F. unfold aes_enc. rewrite (proj2 (is_bytes_spec k) Hk), (proj2 (is_block_spec b) (conj L F)). reflexivity. Qed.
Theorem aes_contract_holds rand : (forall n r, rand n = Some r -> length r = n) -> aes_contract sha256_sum aes_enc aes_dec gcm_tag rand.
Proof.
  intros R. split; [intros; apply sha256_ok|]. split; [|split; [intros; apply gcm_tag_length|exact R]].
  intros k b L. unfold aes_enc, aes_dec. destruct (is_bytes k) eqn:Ek; cbn [andb]; [|auto]. apply is_bytes_spec in Ek.
  destruct (is_block b) eqn:Eb; [|rewrite Eb; auto]. apply is_block_spec in Eb. destruct (cipher_ok_inv k b (round_keys_ok k Ek) Eb) as (A & B & C & D).
  rewrite (proj2 (is_block_spec _) A), (proj2 (is_block_spec _) B), C, D. destruct A as [A _], B as [B _]. auto.
Qed.
(** the round trips of aesx with the real primitives: the only hypothesis left is that
    rand.Read fills the bytes *)
Section go.
Context (rand : nat -> option bytes).
Context (R : forall n r, rand n = Some r -> length r = n).
Theorem aesx_roundtrip data key extra iv nonce : rand 16%nat = Some iv -> rand 12%nat = Some nonce ->
  ((length data mod 16 = 0)%nat -> exists c, encrypt_cbc sha256_sum aes_enc rand data key = Ret (inl c) /\ decrypt_cbc sha256_sum aes_dec c extra key = Ret (inl data)) /\
  (exists c, encrypt_ctr sha256_sum aes_enc rand data key = Ret (inl c) /\ decrypt_ctr sha256_sum aes_enc c extra key = Ret (inl data)) /\
  (blen data <= gcm_max -> exists c, encrypt_gcm sha256_sum aes_enc gcm_tag rand data key = Ret (inl c) /\ decrypt_gcm sha256_sum aes_enc gcm_tag c extra key = Ret (inl data)).
Proof.
  intros Hiv Hn. pose proof (aes_contract_holds rand R) as K. split_and!.
  - intros L. destruct (cbc_roundtrip _ _ _ _ _ K data key iv extra Hiv L) as (c & E & _ & D). eauto.
  - destruct (ctr_roundtrip _ _ _ _ _ K data key iv extra Hiv) as (c & E & _ & D). eauto.
  - intros L. destruct (gcm_roundtrip _ _ _ _ _ K data key nonce extra Hn L) as (c & E & _ & D). eauto.
Qed.
End go.

(** *** GHASH as a polynomial *)
Fixpoint coeffs (n : nat) (c : bytes) : list Z := match n with O => [] | S n => unbe (take 16 (take 16 c ++ repeat 0 16)) :: coeffs n (drop 16 c) end.
Definition nblocks (c : bytes) : nat := ((length c + 15) / 16)%nat.
Definition lenblock (c : bytes) : Z := unbe (be 8 0 ++ be 8 (Z.of_nat (length c) * 8)).
Definition poly (c : bytes) : list Z := coeffs (nblocks c) c ++ [lenblock c].
Lemma coeffs_length n : forall c, length (coeffs n c) = n.
Proof. induction n as [|n IH]; intros c; cbn [coeffs length]; [reflexivity|]. rewrite IH. reflexivity. Qed.
Lemma ghash_data_poly n h : forall c y, ghash_data n h (mul y h) c = mul (peval h (coeffs n c) y) h.
Proof.
  induction n as [|n IH]; intros c y; cbn [ghash_data coeffs]; [reflexivity|]. unfold ghash_step. rewrite ghash_mul_mul. rewrite IH. unfold peval. cbn [foldl]. reflexivity.
Qed.
Lemma peval_app h a b y : peval h (a ++ b) y = peval h b (peval h a y).
Proof. unfold peval. apply foldl_app. Qed.
Lemma ghash_poly h c : ghash h c = mul (peval h (poly c) 0) h.
Proof.
  unfold ghash, poly. rewrite peval_app. rewrite <- (mul_0_l h) at 1. rewrite ghash_data_poly. unfold ghash_step. rewrite ghash_mul_mul. reflexivity.
Qed.
(** *** numbers of blocks *)
Lemma unbe_snoc l b : unbe (l ++ [b]) = unbe l * 256 + b.
Proof. apply unbe_go_snoc. Qed.
Lemma unbe_bound l : Forall is_byte l -> 0 <= unbe l < 256 ^ Z.of_nat (length l).
Proof.
  induction l as [|b l IH] using rev_ind; intros F; [cbn; lia|]. apply Forall_app in F as [F1 F2]. apply Forall_cons_1 in F2 as [Hb _]. specialize (IH F1). rewrite unbe_snoc, app_length. cbn [length].
  replace (Z.of_nat (length l + 1)) with (Z.succ (Z.of_nat (length l))) by lia. rewrite Z.pow_succ_r by lia. unfold is_byte in Hb. lia.
Qed.
Lemma be_unbe l : Forall is_byte l -> be (length l) (unbe l) = l.
Proof.
  induction l as [|b l IH] using rev_ind; intros F; [reflexivity|]. apply Forall_app in F as [F1 F2]. apply Forall_cons_1 in F2 as [Hb _]. unfold is_byte in Hb. rewrite app_length. cbn [length]. rewrite Nat.add_1_r. cbn [be].
  rewrite unbe_snoc. rewrite Z.div_add_l, Z.div_small, Z.add_0_r by lia. rewrite Z.add_comm, Z.mod_add, Z.mod_small by lia. rewrite IH by exact F1. reflexivity.
Qed.
Lemma unbe_inj l l' : Forall is_byte l -> Forall is_byte l' -> length l = length l' -> unbe l = unbe l' -> l = l'.
Proof. intros F F' L E. rewrite <- (be_unbe l F), <- (be_unbe l' F'), L, E. reflexivity. Qed.
Lemma lxor_digits a b a' b' : is_byte b -> is_byte b' -> Z.lxor (a * 256 + b) (a' * 256 + b') = Z.lxor a a' * 256 + Z.lxor b b'.
Proof.
  intros Hb Hb'. assert (A : forall x y, is_byte y -> x * 256 + y = Z.lxor (Z.shiftl x 8) y).
  { intros x y Hy. rewrite Z.shiftl_mul_pow2 by lia. change (2 ^ 8) with 256. apply Z.add_nocarry_lxor. apply Z.bits_inj'. intros i Hi. rewrite Z.land_spec, Z.bits_0. change 256 with (2 ^ 8).
    destruct (Z.lt_ge_cases i 8) as [L|L]; [rewrite Z.mul_pow2_bits_low by exact L; reflexivity|].
    rewrite <- (Z.mod_small y (2 ^ 8)) by exact Hy. rewrite Z.mod_pow2_bits_high by lia. apply andb_false_r. }
  rewrite !A by (try apply lxor_byte; assumption). rewrite Z.shiftl_lxor. apply lxor_swap.
Qed.
Lemma unbe_xor l : forall l', Forall is_byte l -> Forall is_byte l' -> length l = length l' -> unbe (xor l l') = Z.lxor (unbe l) (unbe l').
Proof.
  induction l as [|b l IH] using rev_ind; intros l' F F' L.
  - destruct l'; [reflexivity|discriminate L].
  - destruct l' as [|b' l' _] using rev_ind; [rewrite app_length in L; cbn in L; lia|]. rewrite !app_length in L. cbn [length] in L.
    apply Forall_app in F as [F1 F2], F' as [F1' F2']. apply Forall_cons_1 in F2 as [Hb _], F2' as [Hb' _].
    rewrite xor_app by lia. change (xor [b] [b']) with [Z.lxor b b']. rewrite !unbe_snoc, IH by (assumption || lia). symmetry. apply lxor_digits; assumption.
Qed.
Lemma pad_bytes c : Forall is_byte c -> block16 (take 16 (take 16 c ++ repeat 0 16)).
Proof.
  intros F. split; [rewrite take_length, app_length, repeat_length; lia|]. apply Forall_take, Forall_app. split; [apply Forall_take, F|].
  apply Forall_forall. intros x Hx. apply elem_of_list_In, repeat_spec in Hx. subst. unfold is_byte. lia.
Qed.
Lemma block_field b : block16 b -> field (unbe b).
Proof. intros [L F]. pose proof (unbe_bound b F) as B. rewrite L in B. exact B. Qed.
Lemma coeffs_field n : forall c, Forall is_byte c -> Forall field (coeffs n c).
Proof. induction n as [|n IH]; intros c F; constructor; [apply block_field, pad_bytes, F|apply IH, Forall_drop, F]. Qed.
Lemma lenblock_field c : field (lenblock c).
Proof. apply block_field. split; [rewrite app_length, !be_length; reflexivity|]. apply Forall_app. split; apply be_bytes. Qed.
Lemma poly_field c : Forall is_byte c -> Forall field (poly c).
Proof. intros F. apply Forall_app. split; [apply coeffs_field, F|]. constructor; [apply lenblock_field|constructor]. Qed.
Lemma lenblock_inj c c' : Z.of_nat (length c) * 8 < 2 ^ 64 -> Z.of_nat (length c') * 8 < 2 ^ 64 -> lenblock c = lenblock c' -> length c = length c'.
Proof.
  intros H H' E. apply unbe_inj in E; [|apply Forall_app; split; apply be_bytes..|rewrite !app_length, !be_length; reflexivity].
  apply app_inv_head in E. apply (f_equal unbe) in E. rewrite !unbe_be in E. change (256 ^ Z.of_nat 8) with (2 ^ 64) in E. rewrite !Z.mod_small in E by lia. lia.
Qed.
Lemma coeffs_inj n : forall c c', Forall is_byte c -> Forall is_byte c' -> length c = length c' -> (length c <= 16 * n)%nat -> coeffs n c = coeffs n c' -> c = c'.
Proof.
  induction n as [|n IH]; intros c c' F F' L B E.
  - destruct c, c'; try reflexivity; cbn in L, B; lia.
  - cbn [coeffs] in E. injection E as E1 E2. apply IH in E2; [|apply Forall_drop, F|apply Forall_drop, F'|rewrite !drop_length; lia|rewrite drop_length; lia].
    destruct (pad_bytes c F) as [P1 P2], (pad_bytes c' F') as [P1' P2']. apply unbe_inj in E1; [|assumption|assumption|exact (eq_trans P1 (eq_sym P1'))].
    assert (T : take 16 c = take 16 c').
    { apply (f_equal (take (length (take 16 c)))) in E1. rewrite take_take in E1. rewrite Nat.min_l in E1 by (rewrite take_length; lia). rewrite take_app in E1.
      assert (L16 : length (take 16 c) = length (take 16 c')) by (rewrite !take_length; lia). rewrite L16, take_take, Nat.min_l, take_app in E1 by (rewrite take_length; lia). exact E1. }
    rewrite <- (take_drop 16 c), <- (take_drop 16 c'), T, E2. reflexivity.
Qed.

(** *** differences of two polynomials *)
Lemma peval_0s h k cs : peval h (repeat 0 k ++ cs) 0 = peval h cs 0.
Proof. induction k as [|k IH]; [reflexivity|]. unfold peval in *. cbn [repeat app foldl]. rewrite mul_0_l, Z.lxor_0_l. exact IH. Qed.
Lemma peval_xor h cs : forall cs' y y', length cs = length cs' -> peval h (xor cs cs') (Z.lxor y y') = Z.lxor (peval h cs y) (peval h cs' y').
Proof.
  induction cs as [|c cs IH]; intros [|c' cs'] y y' L; try discriminate L; [reflexivity|]. injection L as L. unfold peval, xor in *. cbn [zip_with foldl]. rewrite mul_add_l, lxor_swap. apply IH, L.
Qed.
Definition aligned (m : nat) (cs : list Z) : list Z := repeat 0 (m - length cs) ++ cs.
Lemma aligned_length m cs : (length cs <= m)%nat -> length (aligned m cs) = m.
Proof. intros H. unfold aligned. rewrite app_length, repeat_length. lia. Qed.
Lemma aligned_field m cs : Forall field cs -> Forall field (aligned m cs).
Proof. intros H. apply Forall_app. split; [|exact H]. apply Forall_forall. intros x Hx. apply elem_of_list_In, repeat_spec in Hx. subst. apply field_0. Qed.
Definition diff (c c' : bytes) : list Z := let m := S (Nat.max (nblocks c) (nblocks c')) in xor (aligned m (poly c)) (aligned m (poly c')).
Lemma poly_length c : length (poly c) = S (nblocks c).
Proof. unfold poly. rewrite app_length, coeffs_length. cbn [length]. lia. Qed.
Lemma diff_length c c' : length (diff c c') = S (Nat.max (nblocks c) (nblocks c')).
Proof. unfold diff, xor. rewrite zip_with_length, !aligned_length by (rewrite poly_length; lia). lia. Qed.
Lemma xor_field a b : Forall field a -> Forall field b -> Forall field (xor a b).
Proof. intros Ha. unfold xor. revert b. induction Ha as [|x a Hx Ha IH]; intros b Hb; [constructor|]. destruct Hb as [|y b Hy Hb]; constructor; [apply field_lxor; assumption|apply IH; assumption]. Qed.
Lemma diff_field c c' : Forall is_byte c -> Forall is_byte c' -> Forall field (diff c c').
Proof. intros F F'. apply xor_field; apply aligned_field, poly_field; assumption. Qed.
Lemma ghash_diff h c c' : Z.lxor (ghash h c) (ghash h c') = mul (peval h (diff c c') 0) h.
Proof.
  rewrite !ghash_poly, <- mul_add_l. f_equal. unfold diff. rewrite <- (Z.lxor_0_l 0) at 3. rewrite peval_xor by (rewrite !aligned_length by (rewrite poly_length; lia); reflexivity). unfold aligned. rewrite !peval_0s. reflexivity.
Qed.
Lemma xor_zero (a : list Z) : forall b, length a = length b -> Forall (eq 0) (xor a b) -> a = b.
Proof. induction a as [|x a IH]; intros [|y b] L F; try discriminate L; [reflexivity|]. injection L as L. unfold xor in F. cbn [zip_with] in F. apply Forall_cons_1 in F as [E F]. rewrite (IH b L F). symmetry in E. apply Z.lxor_eq in E. subst. reflexivity. Qed.
Lemma diff_nonzero c c' : Forall is_byte c -> Forall is_byte c' -> Z.of_nat (length c) * 8 < 2 ^ 64 -> Z.of_nat (length c') * 8 < 2 ^ 64 -> c <> c' -> ~ Forall (eq 0) (diff c c').
Proof.
  intros F F' B B' N D. apply N. unfold diff in D. apply xor_zero in D; [|rewrite !aligned_length by (rewrite poly_length; lia); reflexivity].
  unfold aligned, poly in D. rewrite !app_assoc in D. apply app_inj_tail in D as [D E]. pose proof (lenblock_inj c c' B B' E) as L.
  assert (Nb : nblocks c = nblocks c') by (unfold nblocks; rewrite L; reflexivity). rewrite !app_length, !coeffs_length, Nb in D. cbn [length] in D. apply app_inv_head in D.
  apply (coeffs_inj (nblocks c') c c' F F' L); [|exact D]. unfold nblocks. rewrite L. pose proof (Nat.div_mod_eq (length c' + 15) 16) as Q. pose proof (Nat.mod_upper_bound (length c' + 15) 16 ltac:(lia)). lia.
Qed.

(** *** the tag *)
(** two ciphertexts whose lengths in bits fit 64 bits, and a difference of their hashes:
    among any hash keys that produce this difference there are no more different ones than
    blocks plus one (of 2^128) *)
Theorem ghash_almost_universal c c' delta hs : Forall is_byte c -> Forall is_byte c' ->
  Z.of_nat (length c) * 8 < 2 ^ 64 -> Z.of_nat (length c') * 8 < 2 ^ 64 -> 0 <= delta < 2 ^ 128 -> (c <> c' \/ delta <> 0) ->
  List.NoDup hs -> (forall h, In h hs -> 0 <= h < 2 ^ 128 /\ Z.lxor (ghash h c) (ghash h c') = delta) ->
  (length hs <= (Nat.max (length c) (length c') + 15) / 16 + 1)%nat.
Proof.
  intros F F' B B' Hd N Nd H.
  assert (M : ((Nat.max (length c) (length c') + 15) / 16 = Nat.max (nblocks c) (nblocks c'))%nat).
  { unfold nblocks. destruct (Nat.max_spec (length c) (length c')) as [[L ->]|[L ->]].
    - rewrite Nat.max_r; [reflexivity|]. apply Nat.div_le_mono; lia.
    - rewrite Nat.max_l; [reflexivity|]. apply Nat.div_le_mono; lia. }
  rewrite M. assert (length hs < S (S (Nat.max (nblocks c) (nblocks c'))))%nat; [|lia].
  apply (roots_bound _ (diff c c' ++ [delta])).
  - rewrite app_length, diff_length. cbn [length]. lia.
  - apply Forall_app. split; [apply diff_field; assumption|]. constructor; [exact Hd|constructor].
  - intros A. apply Forall_app in A as [A1 A2]. apply Forall_cons_1 in A2 as [A2 _]. destruct N as [N|N]; [apply (diff_nonzero c c'); assumption|congruence].
  - apply Forall_forall. intros h Hh. apply elem_of_list_In in Hh. apply H, Hh.
  - exact Nd.
  - intros h Hh. destruct (H h Hh) as [_ E]. rewrite peval_app. unfold peval at 1. cbn [foldl]. rewrite <- ghash_diff, E. apply Z.lxor_nilpotent.
Qed.
Definition subkey (key : bytes) : Z := unbe (aes_enc (sha256_sum key) (repeat 0 16)).
Lemma enc_block16 k b : Forall is_byte k -> block16 b -> block16 (aes_enc k b).
Proof. intros Hk Hb. unfold aes_enc. rewrite (proj2 (is_bytes_spec k) Hk), (proj2 (is_block_spec b) Hb). apply (cipher_ok_inv k b (round_keys_ok k Hk) Hb). Qed.
Lemma zeros_block : block16 (repeat 0 16).
Proof. split; [reflexivity|]. apply Forall_forall. intros x Hx. apply elem_of_list_In, repeat_spec in Hx. subst. unfold is_byte. lia. Qed.
Lemma subkey_field key : field (subkey key).
Proof. apply block_field, enc_block16; [apply sha256_ok|apply zeros_block]. Qed.
Lemma ghash_field h c : field h -> field (ghash h c).
Proof. intros H. rewrite ghash_poly. apply field_mul, H. Qed.
Lemma tag_xor key nonce c : length nonce = 12%nat -> Forall is_byte nonce ->
  exists pad, block16 pad /\ pad = aes_enc (sha256_sum key) (nonce ++ be 4 1) /\ gcm_tag (sha256_sum key) nonce c = xor (be 16 (ghash (subkey key) c)) pad.
Proof.
  intros L F. exists (aes_enc (sha256_sum key) (nonce ++ be 4 1)). assert (P : block16 (aes_enc (sha256_sum key) (nonce ++ be 4 1))).
  { apply enc_block16; [apply sha256_ok|]. split; [rewrite app_length, be_length, L; reflexivity|]. apply Forall_app. split; [exact F|apply be_bytes]. }
  split; [exact P|]. split; [reflexivity|]. unfold gcm_tag. fold (subkey key). destruct P as [P _]. assert (X16 : length (xor (be 16 (ghash (subkey key) c)) (aes_enc (sha256_sum key) (nonce ++ be 4 1))) = 16%nat) by (rewrite xor_length by (rewrite be_length; lia); apply be_length).
  rewrite take_app_le by lia. apply take_ge. lia.
Qed.
Lemma tag_diff key nonce c c' : length nonce = 12%nat -> Forall is_byte nonce ->
  Z.lxor (unbe (gcm_tag (sha256_sum key) nonce c)) (unbe (gcm_tag (sha256_sum key) nonce c')) = Z.lxor (ghash (subkey key) c) (ghash (subkey key) c').
Proof.
  intros L F. destruct (tag_xor key nonce c L F) as (pad & P & E1 & ->). destruct (tag_xor key nonce c' L F) as (pad' & P' & E2 & ->). assert (Epp : pad' = pad) by congruence. rewrite Epp. clear E1 E2 Epp P'.
  destruct P as [P1 P2]. rewrite !unbe_xor by (try apply be_bytes; try exact P2; rewrite be_length, P1; reflexivity). rewrite lxor_swap, Z.lxor_nilpotent, Z.lxor_0_r. rewrite !unbe_be.
  change (256 ^ Z.of_nat 16) with (2 ^ 128). rewrite !Z.mod_small; [reflexivity|apply ghash_field, subkey_field..].
Qed.
(** what DecryptGCM accepts has the tag of its ciphertext and is not too long *)
Lemma accepted key nonce c t extra d : length nonce = 12%nat -> length t = 16%nat ->
  decrypt_gcm sha256_sum aes_enc gcm_tag (nonce ++ c ++ t) extra key = Ret (inl d) -> t = gcm_tag (sha256_sum key) nonce c /\ Z.of_nat (length c) * 8 < 2 ^ 64.
Proof.
  intros Ln Lt. pose proof (aes_contract_holds (fun n => Some (repeat 0 n)) ltac:(intros n r [= <-]; apply repeat_length)) as K.
  unfold decrypt_gcm. rewrite (cipher_ok _ _ _ _ _ K). rewrite upto_app by exact Ln. cbn [rbind]. rewrite from_app by exact Ln. cbn [rbind].
  unfold open. rewrite bool_decide_true by exact Ln. rewrite app_length, Lt. destruct (Nat.ltb_spec (length c + 16) 16); [lia|]. destruct (Z.ltb_spec (gcm_max + 16) (blen (c ++ t))) as [|G]; [discriminate|].
  replace (length c + 16 - 16)%nat with (length c) by lia. rewrite take_app, drop_app. case_bool_decide as T; [|discriminate]. intros _. split; [symmetry; exact T|].
  unfold blen, gcm_max in G. rewrite app_length, Lt in G. lia.
Qed.
(** C149: forging from one message another one with the same nonce: for each pair there is a
    list of at most (blocks + 1) numbers, fixed by the two messages alone, and the forgery
    works only under passwords whose hash key, the encryption of the zero block, is among
    these *)
Theorem gcm_forgery_bound nonce c t c' t' : length nonce = 12%nat -> Forall is_byte nonce -> Forall is_byte c -> Forall is_byte c' ->
  length t = 16%nat -> Forall is_byte t -> length t' = 16%nat -> Forall is_byte t' -> (c, t) <> (c', t') ->
  exists bad : list Z, (length bad <= (Nat.max (length c) (length c') + 15) / 16 + 1)%nat /\
    forall key extra extra' d d', decrypt_gcm sha256_sum aes_enc gcm_tag (nonce ++ c ++ t) extra key = Ret (inl d) ->
      decrypt_gcm sha256_sum aes_enc gcm_tag (nonce ++ c' ++ t') extra' key = Ret (inl d') ->
      In (unbe (aes_enc (sha256_sum key) (repeat 0 16))) bad.
Proof.
  intros Ln Fn Fc Fc' Lt Ft Lt' Ft' N.
  destruct (Z_lt_ge_dec (Z.of_nat (length c) * 8) (2 ^ 64)) as [B|B]; [|exists []; split; [cbn; lia|]; intros key e e' d d' A _; apply accepted in A as [_ A]; [lia|exact Ln|exact Lt]].
  destruct (Z_lt_ge_dec (Z.of_nat (length c') * 8) (2 ^ 64)) as [B'|B']; [|exists []; split; [cbn; lia|]; intros key e e' d d' _ A; apply accepted in A as [_ A]; [lia|exact Ln|exact Lt']].
  set (delta := Z.lxor (unbe t) (unbe t')).
  assert (Hd : field delta) by (apply field_lxor; apply block_field; split; assumption).
  assert (Nd : c <> c' \/ delta <> 0).
  { destruct (decide (c = c')) as [->|]; [right|left; assumption]. intros E. apply N. f_equal. apply Z.lxor_eq in E. apply unbe_inj in E; [exact E|assumption|assumption|congruence]. }
  assert (S : exists all : list Z, List.NoDup all /\ forall h, In h all <-> 0 <= h < 2 ^ 128).
  { generalize (2 ^ 128). intros M. exists (map Z.of_nat (seq 0 (Z.to_nat M))). split; [apply FinFun.Injective_map_NoDup; [intros x y; lia|apply seq_NoDup]|].
    intros h. rewrite in_map_iff. split; [intros (n & <- & I); apply in_seq in I; lia|]. intros H. exists (Z.to_nat h). split; [lia|]. apply in_seq. lia. }
  destruct S as (all & Na & Ha).
  exists (List.filter (fun h => Z.lxor (ghash h c) (ghash h c') =? delta) all). split.
  - apply (ghash_almost_universal c c' delta); try assumption; [apply List.NoDup_filter, Na|]. intros h Hh. apply filter_In in Hh as [I E]. apply Z.eqb_eq in E. split; [apply Ha, I|exact E].
  - intros key e e' d d' A A'. apply accepted in A as [-> _]; [|exact Ln|exact Lt]. apply accepted in A' as [-> _]; [|exact Ln|exact Lt'].
    apply filter_In. fold (subkey key). split; [apply Ha, subkey_field|]. apply Z.eqb_eq. unfold delta. symmetry. apply tag_diff; assumption.
Qed.
(** a change within one block of the ciphertext, whatever it is, changes the tag for every
    password whose hash key is not 0 *)
Lemma peval_zeros_inj h cs y : field h -> h <> 0 -> field y -> Forall (eq 0) cs -> peval h cs y = 0 -> y = 0.
Proof.
  intros Hh Nh Hy F. revert y Hy. induction F as [|c cs <- F IH]; intros y Hy E; [exact E|]. unfold peval in *. cbn [foldl] in E. rewrite Z.lxor_0_r in E. apply IH in E; [|apply field_mul, Hh]. apply mul_zero in E as [E|E]; [exact E|contradiction|exact Hy|exact Hh].
Qed.
Lemma peval_one_coeff h cs i : field h -> h <> 0 -> Forall field cs -> (forall j, j <> i -> (j < length cs)%nat -> nth j cs 0 = 0) -> peval h cs 0 = 0 -> Forall (eq 0) cs.
Proof.
  intros Hh Nh F. revert i. induction F as [|c cs Hc F IH]; intros i H E; [constructor|]. destruct i as [|i].
  - assert (A : Forall (eq 0) cs). { apply Forall_forall. intros x Hx. apply elem_of_list_In in Hx. apply (In_nth _ _ 0) in Hx as (j & Lj & <-). symmetry. apply (H (S j)); [lia|cbn [length]; lia]. }
    constructor; [|exact A]. unfold peval in E. cbn [foldl] in E. rewrite mul_0_l, Z.lxor_0_l in E. symmetry. apply (peval_zeros_inj h cs c); assumption.
  - pose proof (H 0%nat ltac:(lia) ltac:(cbn [length]; lia)) as Z0. cbn [nth] in Z0. subst c. constructor; [reflexivity|]. apply (IH i).
    + intros j Nj Lj. apply (H (S j)); [lia|cbn [length]; lia].
    + unfold peval in *. cbn [foldl] in E. rewrite mul_0_l, Z.lxor_0_l in E. exact E.
Qed.
Lemma coeffs_nth n : forall c j, (j < n)%nat -> nth j (coeffs n c) 0 = unbe (take 16 (take 16 (drop (16 * j) c) ++ repeat 0 16)).
Proof.
  induction n as [|n IH]; intros c j Hj; [lia|]. cbn [coeffs]. destruct j as [|j]; cbn [nth]; [rewrite Nat.mul_0_r, drop_0; reflexivity|]. rewrite IH by lia. rewrite drop_drop. do 5 f_equal. lia.
Qed.
Lemma nth_xor (a b : list Z) j : length a = length b -> (j < length a)%nat -> nth j (xor a b) 0 = Z.lxor (nth j a 0) (nth j b 0).
Proof. revert b j. induction a as [|x a IH]; intros [|y b] j L H; cbn in L, H; try lia. destruct j as [|j]; [reflexivity|]. unfold xor in *. cbn [zip_with nth]. apply IH; lia. Qed.
Lemma single_block_hash h c c' i : field h -> h <> 0 -> Forall is_byte c -> Forall is_byte c' -> Z.of_nat (length c) * 8 < 2 ^ 64 -> length c = length c' -> c <> c' ->
  (forall j, (j / 16)%nat <> i -> c !! j = c' !! j) -> ghash h c <> ghash h c'.
Proof.
  intros Hh Nh F F' B L N O E. apply (f_equal (fun x => Z.lxor x (ghash h c'))) in E. cbn beta in E. rewrite Z.lxor_nilpotent, ghash_diff in E.
  assert (Nb : nblocks c' = nblocks c) by (unfold nblocks; rewrite L; reflexivity).
  apply mul_zero in E as [E|E]; [|contradiction|apply peval_field; [exact Hh|apply diff_field; assumption|apply field_0]|exact Hh].
  apply (diff_nonzero c c' F F' B ltac:(rewrite <- L; exact B) N). apply (peval_one_coeff h _ i Hh Nh); [apply diff_field; assumption| |exact E].
  intros j Nj Lj. rewrite diff_length, Nb, Nat.max_id in Lj. unfold diff. rewrite Nb, Nat.max_id. unfold aligned. rewrite !poly_length, Nb, Nat.sub_diag. cbn [repeat app].
  rewrite nth_xor by (rewrite !poly_length, ?Nb; lia). unfold poly. rewrite Nb. destruct (Nat.eq_dec j (nblocks c)) as [->|Nl].
  - rewrite !app_nth2 by (rewrite coeffs_length; lia). rewrite !coeffs_length, Nat.sub_diag. cbn [nth]. unfold lenblock. rewrite L. apply Z.lxor_nilpotent.
  - rewrite !app_nth1 by (rewrite coeffs_length; lia). rewrite !coeffs_nth by lia.
    assert (T : take 16 (drop (16 * j) c) = take 16 (drop (16 * j) c')).
    { apply list_eq. intros k. destruct (decide (k < 16)%nat) as [Hk|Hk].
      - rewrite !lookup_take, !lookup_drop by lia. apply O. rewrite Nat.mul_comm, Nat.div_add_l, Nat.div_small by lia. lia.
      - rewrite !lookup_take_ge by lia. reflexivity. }
    rewrite T. apply Z.lxor_nilpotent.
Qed.
Theorem gcm_single_block_tamper nonce c t c' i key extra d : length nonce = 12%nat -> Forall is_byte nonce -> Forall is_byte c -> Forall is_byte c' -> length t = 16%nat ->
  unbe (aes_enc (sha256_sum key) (repeat 0 16)) <> 0 ->
  decrypt_gcm sha256_sum aes_enc gcm_tag (nonce ++ c ++ t) extra key = Ret (inl d) ->
  length c = length c' -> c <> c' -> (forall j, (j / 16)%nat <> i -> c !! j = c' !! j) ->
  forall extra', decrypt_gcm sha256_sum aes_enc gcm_tag (nonce ++ c' ++ t) extra' key = Ret (inr ErrOpen).
Proof.
  intros Ln Fn Fc Fc' Lt Nh A L N O extra'. apply accepted in A as [-> B]; [|exact Ln|exact Lt].
  pose proof (aes_contract_holds (fun n => Some (repeat 0 n)) ltac:(intros n r [= <-]; apply repeat_length)) as K.
  apply (gcm_tamper _ _ _ _ _ K); [exact Ln|exact Lt|]. intros E. apply (single_block_hash (subkey key) c c' i (subkey_field key) Nh Fc Fc' B L N O).
  apply Z.lxor_eq. rewrite <- (tag_diff key nonce) by assumption. rewrite E. apply Z.lxor_nilpotent.
Qed.

(** *** the standards' test vectors *)
(** FIPS 197, appendix C *)
Example aes128_vector : unbe (aes_enc (map Z.of_nat (seq 0 16)) (be 16 0x00112233445566778899aabbccddeeff)) = 0x69c4e0d86a7b0430d8cdb78070b4c55a.
Proof. vm_compute. reflexivity. Qed.
Example aes192_vector : unbe (aes_enc (map Z.of_nat (seq 0 24)) (be 16 0x00112233445566778899aabbccddeeff)) = 0xdda97ca4864cdfe06eaf70a0ec0d7191.
Proof. vm_compute. reflexivity. Qed.
Example aes256_vector : unbe (aes_enc (map Z.of_nat (seq 0 32)) (be 16 0x00112233445566778899aabbccddeeff)) = 0x8ea2b7ca516745bfeafc49904b496089 /\
  unbe (aes_dec (map Z.of_nat (seq 0 32)) (be 16 0x8ea2b7ca516745bfeafc49904b496089)) = 0x00112233445566778899aabbccddeeff.
Proof. split; vm_compute; reflexivity. Qed.
(** FIPS 180-4: "abc", the empty string, and a message of two blocks *)
Example sha256_vector : unbe (sha256_sum [97; 98; 99]) = 0xba7816bf8f01cfea414140de5dae2223b00361a396177a9cb410ff61f20015ad /\
  unbe (sha256_sum []) = 0xe3b0c44298fc1c149afbf4c8996fb92427ae41e4649b934ca495991b7852b855 /\
  unbe (sha256_sum (concat (map (fun i => map (fun j => 97 + Z.of_nat (i + j)) (seq 0 4)) (seq 0 14)))) = 0x248d6a61d20638b8e5c026930c3e6039a33ce45964ff2167f6ecedd419db06c1.
Proof. split_and!; vm_compute; reflexivity. Qed.
(** the GCM specification, test cases 13 and 14 *)
Example gcm_vector : unbe (gcm_tag (repeat 0 32) (repeat 0 12) []) = 0x530f8afbc74536b9a963b4f1c4cb738b /\
  seal aes_enc gcm_tag (repeat 0 32) (repeat 0 12) (repeat 0 16) = Ret (be 32 0xcea7403d4d606b6e074ec5d3baf39d18d0d1c8a799996bf0265b98b5d48ab919).
Proof. split; vm_compute; reflexivity. Qed.
(** EncryptGCM of three bytes with a fixed nonce; changing one byte is noticed *)
Definition ex_rand (n : nat) : option bytes := Some (map Z.of_nat (seq 7 n)).
Example gcm_ex : exists c t, encrypt_gcm sha256_sum aes_enc gcm_tag ex_rand [1; 2; 3] [9] = Ret (inl (map Z.of_nat (seq 7 12) ++ c ++ t)) /\ length t = 16%nat /\ length c = 3%nat /\
  decrypt_gcm sha256_sum aes_enc gcm_tag (map Z.of_nat (seq 7 12) ++ c ++ t) [] [9] = Ret (inl [1; 2; 3]) /\
  decrypt_gcm sha256_sum aes_enc gcm_tag (map Z.of_nat (seq 7 12) ++ xor c [0; 1; 0] ++ t) [] [9] = Ret (inr ErrOpen) /\
  unbe (aes_enc (sha256_sum [9]) (repeat 0 16)) <> 0.
Proof.
  set (r := encrypt_gcm sha256_sum aes_enc gcm_tag ex_rand [1; 2; 3] [9]). exists (match r with Ret (inl x) => take 3 (drop 12 x) | _ => [] end), (match r with Ret (inl x) => drop 15 x | _ => [] end).
  subst r. split_and!; try (vm_compute; reflexivity). vm_compute. discriminate.
Qed.
(** each theorem on a case that meets its hypotheses *)
Ltac all_bytes := repeat (apply Forall_cons; split; [unfold is_byte; lia|]); apply Forall_nil; exact I.
Lemma ex_rand_length n r : ex_rand n = Some r -> length r = n.
Proof. intros [= <-]. rewrite map_length, seq_length. reflexivity. Qed.
Lemma repeat_bytes b n : is_byte b -> Forall is_byte (repeat b n).
Proof. intros H. induction n; constructor; assumption. Qed.
Lemma byte_7 : is_byte 7. Proof. unfold is_byte. lia. Qed.
Lemma byte_1 : is_byte 1. Proof. unfold is_byte. lia. Qed.
Example aes_inverse_case := aes_inverse (repeat 7 32) (repeat 1 16) (repeat_bytes 7 32 byte_7) eq_refl (repeat_bytes 1 16 byte_1).
Example aes_injective_case : cipher (repeat 7 32) (repeat 1 16) <> cipher (repeat 7 32) (repeat 7 16).
Proof. intros H. pose proof (aes_injective (repeat 7 32) (repeat 1 16) (repeat 7 16) (repeat_bytes 7 32 byte_7) eq_refl (repeat_bytes 1 16 byte_1) eq_refl (repeat_bytes 7 16 byte_7) H) as D. clear H. discriminate D. Qed.
Example aes_contract_holds_case := aes_contract_holds ex_rand ex_rand_length.
Example aesx_roundtrip_case := aesx_roundtrip ex_rand ex_rand_length (repeat 7 32) [9] [] _ _ eq_refl eq_refl.
(** the messages of 7 and of 1, and the hash key 0, under which all messages hash to 0 *)
Example ghash_almost_universal_case : (length [0] <= 2)%nat.
Proof.
  refine (ghash_almost_universal (repeat 7 16) (repeat 1 16) 0 [0] (repeat_bytes 7 16 byte_7) (repeat_bytes 1 16 byte_1) eq_refl eq_refl _ _ _ _); [split; [apply Z.le_refl|reflexivity]|left; discriminate|repeat constructor; intros []|].
  intros h [<-|[]]. split; [split; [apply Z.le_refl|reflexivity]|]. vm_compute. reflexivity.
Qed.
Example gcm_forgery_bound_case := gcm_forgery_bound (repeat 7 12) (repeat 7 40) (repeat 1 16) (repeat 1 40) (repeat 7 16) eq_refl (repeat_bytes 7 12 byte_7) (repeat_bytes 7 40 byte_7) (repeat_bytes 1 40 byte_1)
  eq_refl (repeat_bytes 1 16 byte_1) eq_refl (repeat_bytes 7 16 byte_7) ltac:(discriminate).
Example gcm_single_block_tamper_case : exists c t, decrypt_gcm sha256_sum aes_enc gcm_tag (map Z.of_nat (seq 7 12) ++ c ++ t) [] [9] = Ret (inl [1; 2; 3]) /\ length c = 3%nat /\
  forall c', Forall is_byte c -> Forall is_byte c' -> length c = length c' -> c <> c' -> decrypt_gcm sha256_sum aes_enc gcm_tag (map Z.of_nat (seq 7 12) ++ c' ++ t) [] [9] = Ret (inr ErrOpen).
Proof.
  destruct gcm_ex as (c & t & _ & Ht & Hc & H & _ & Hk). exists c, t. split; [exact H|]. split; [exact Hc|]. intros c' B B' E N.
  refine (gcm_single_block_tamper (map Z.of_nat (seq 7 12)) c t c' 0 [9] [] _ eq_refl _ B B' Ht Hk H E N _ []); [cbn; all_bytes|].
  intros j Hj. assert (16 <= j)%nat by (destruct (decide (j < 16)%nat); [rewrite Nat.div_small in Hj by assumption; congruence|lia]).
  rewrite !lookup_ge_None_2 by lia. reflexivity.
Qed.

Print Assumptions aes_inverse.
Print Assumptions aes_injective.
Print Assumptions aes_contract_holds.
Print Assumptions aesx_roundtrip.
Print Assumptions ghash_almost_universal.
Print Assumptions gcm_forgery_bound.
Print Assumptions gcm_single_block_tamper.
