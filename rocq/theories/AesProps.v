(** Properties of cryptox/aesx (C80, C81, C100, C101). *)
From Verif Require Import Base PassModel PassProofs AesModel.
Local Open Scope Z.

(** *** bytes *)
Lemma xor_length (a b : bytes) : (length a <= length b)%nat -> length (xor a b) = length a.
Proof. intros H. unfold xor. rewrite zip_with_length. lia. Qed.
Lemma xor_undo (a k : bytes) : (length a <= length k)%nat -> xor (xor a k) k = a.
Proof.
  unfold xor. revert k. induction a as [|x a IH]; intros k H; [reflexivity|]. destruct k as [|y k]; [cbn in H; lia|]. cbn [zip_with]. f_equal; [|apply IH; cbn in H; lia].
  rewrite Z.lxor_assoc, Z.lxor_nilpotent, Z.lxor_0_r. reflexivity.
Qed.
Lemma xor_swap (a d k : bytes) : xor (xor a d) k = xor (xor a k) d.
Proof.
  unfold xor. revert d k. induction a as [|x a IH]; intros d k; [reflexivity|]. destruct d as [|y d], k as [|z k]; cbn [zip_with]; try reflexivity. f_equal; [|apply IH].
  rewrite !Z.lxor_assoc. f_equal. apply Z.lxor_comm.
Qed.
Lemma be_length n : forall v, length (be n v) = n.
Proof. induction n as [|n IH]; intros v; cbn [be]; [reflexivity|]. rewrite app_length, IH. cbn. lia. Qed.
Lemma be_bytes n : forall v, Forall is_byte (be n v).
Proof. induction n as [|n IH]; intros v; cbn [be]; [constructor|]. apply Forall_app. split; [apply IH|]. constructor; [apply Z.mod_pos_bound; lia|constructor]. Qed.
Lemma blocks_length blk n : (forall i, length (blk i) = 16%nat) -> length (blocks blk n) = (16 * n)%nat.
Proof. intros H. induction n as [|n IH]; cbn [blocks]; [reflexivity|]. rewrite app_length, IH, H. lia. Qed.
Lemma stream_length blk (src : bytes) : (forall i, length (blk i) = 16%nat) -> length (take (length src) (blocks blk (length src / 16 + 1))) = length src.
Proof. intros H. rewrite take_length, blocks_length by exact H. pose proof (Nat.div_mod (length src) 16 ltac:(lia)). pose proof (Nat.mod_upper_bound (length src) 16 ltac:(lia)). lia. Qed.
Lemma xks_length blk (src : bytes) : (forall i, length (blk i) = 16%nat) -> length (xor_key_stream blk src) = length src.
Proof. intros H. unfold xor_key_stream. apply xor_length. rewrite stream_length by exact H. lia. Qed.
Lemma xks_undo blk (src : bytes) : (forall i, length (blk i) = 16%nat) -> xor_key_stream blk (xor_key_stream blk src) = src.
Proof. intros H. unfold xor_key_stream at 1. rewrite xks_length by exact H. unfold xor_key_stream. apply xor_undo. rewrite stream_length by exact H. lia. Qed.

Section aes.
Context (sha256 : bytes -> bytes) (enc dec : bytes -> bytes -> bytes) (gtag : bytes -> bytes -> bytes -> bytes) (rand : nat -> option bytes).
(** what the parameters must do: SHA-256 gives 32 bytes, the cipher maps blocks to blocks
    and Decrypt undoes Encrypt, tags have 16 bytes, rand.Read fills the slice *)
Definition aes_contract : Prop :=
  (forall key, length (sha256 key) = 32%nat) /\
  (forall k b, length b = 16%nat -> length (enc k b) = 16%nat /\ length (dec k b) = 16%nat /\ dec k (enc k b) = b /\ enc k (dec k b) = b) /\
  (forall k n c, length (gtag k n c) = 16%nat) /\
  (forall n r, rand n = Some r -> length r = n).
Notation eCBC := (encrypt_cbc sha256 enc rand). Notation dCBC := (decrypt_cbc sha256 dec).
Notation eCTR := (encrypt_ctr sha256 enc rand). Notation dCTR := (decrypt_ctr sha256 enc).
Notation eGCM := (encrypt_gcm sha256 enc gtag rand). Notation dGCM := (decrypt_gcm sha256 enc gtag).
Context (K : aes_contract).
Lemma cipher_ok key : new_cipher (sha256 key) = None.
Proof. destruct K as (H & _). unfold new_cipher. rewrite bool_decide_true; [reflexivity|]. right. right. apply H. Qed.
Lemma ctr_block_length k iv i : length (ctr_block enc k iv i) = 16%nat.
Proof. destruct K as (_ & H & _). unfold ctr_block. apply H. apply be_length. Qed.
Lemma gcm_block_length k n i : length n = 12%nat -> length (gcm_block enc k n i) = 16%nat.
Proof. intros Hn. destruct K as (_ & H & _). unfold gcm_block. apply H. rewrite app_length, be_length, Hn. reflexivity. Qed.
Lemma upto_app (iv c extra : bytes) n : length iv = n -> upto (iv ++ c) extra n = Ret iv.
Proof. intros <-. unfold upto. destruct (Nat.leb_spec (length iv) (length (iv ++ c) + length extra)) as [_|G]; [|rewrite app_length in G; lia]. rewrite <- app_assoc, take_app. reflexivity. Qed.
Lemma from_app (iv c : bytes) n : length iv = n -> from (iv ++ c) n = Ret c.
Proof. intros <-. unfold from. destruct (Nat.leb_spec (length iv) (length (iv ++ c))) as [_|G]; [|rewrite app_length in G; lia]. rewrite drop_app. reflexivity. Qed.
(** cutting the header off fails exactly on data shorter than the header *)
Lemma cut_short {B} (data extra : bytes) n (f : bytes -> bytes -> res B) : (length data < n)%nat -> (let! iv := upto data extra n in let! c := from data n in f iv c) = Panic.
Proof. intros H. unfold upto, from. destruct (_ <=? _)%nat; [|reflexivity]. cbn [rbind]. destruct (Nat.leb_spec n (length data)); [lia|reflexivity]. Qed.
Lemma cut_long {B} (data extra : bytes) n (f : bytes -> bytes -> res B) : (n <= length data)%nat -> (let! iv := upto data extra n in let! c := from data n in f iv c) = f (take n data) (drop n data).
Proof.
  intros H. unfold upto, from. destruct (Nat.leb_spec n (length data + length extra)); [|lia]. cbn [rbind]. destruct (Nat.leb_spec n (length data)); [|lia]. cbn [rbind]. rewrite take_app_le by exact H. reflexivity.
Qed.
(** CBC *)
Lemma cbc_enc_length k n : forall prev (src : bytes), length prev = 16%nat -> length src = (16 * n)%nat -> length (cbc_enc enc k prev n src) = (16 * n)%nat.
Proof.
  destruct K as (_ & H & _). induction n as [|n IH]; intros prev src Hp Hs; cbn [cbc_enc]; [reflexivity|].
  assert (L : length (enc k (xor (take 16 src) prev)) = 16%nat) by (apply H; rewrite xor_length; rewrite take_length; lia).
  rewrite app_length, L, IH; [lia|exact L|rewrite drop_length; lia].
Qed.
Lemma cbc_undo k n : forall prev (src : bytes), length prev = 16%nat -> length src = (16 * n)%nat -> cbc_dec dec k prev n (cbc_enc enc k prev n src) = src.
Proof.
  pose proof K as (_ & H & _). induction n as [|n IH]; intros prev src Hp Hs; cbn [cbc_enc cbc_dec]; [destruct src; [reflexivity|cbn in Hs; lia]|].
  assert (Lx : length (xor (take 16 src) prev) = 16%nat) by (rewrite xor_length; rewrite take_length; lia). destruct (H k _ Lx) as (L & _ & D & _).
  rewrite take_app_alt by (symmetry; exact L). rewrite drop_app_alt by (symmetry; exact L). rewrite D, xor_undo by (rewrite take_length; lia). rewrite IH; [apply take_drop|exact L|rewrite drop_length; lia].
Qed.
(** C80 *)
Theorem cbc_roundtrip data key iv extra : rand 16%nat = Some iv -> (length data mod 16 = 0)%nat ->
  exists c, eCBC data key = Ret (inl (iv ++ c)) /\ length c = length data /\ dCBC (iv ++ c) extra key = Ret (inl data).
Proof.
  intros R M. pose proof K as (_ & _ & _ & Hr). pose proof (Hr _ _ R) as Li. unfold encrypt_cbc, decrypt_cbc. rewrite cipher_ok, R. unfold crypt_blocks at 1. rewrite M. cbn [Nat.eqb rbind].
  assert (Ld : length data = (16 * (length data / 16))%nat) by (pose proof (Nat.div_mod (length data) 16 ltac:(lia)); lia).
  eexists. split; [reflexivity|]. pose proof (cbc_enc_length (sha256 key) _ iv data Li Ld) as Lc. split; [congruence|]. rewrite upto_app by exact Li. cbn [rbind]. rewrite from_app by exact Li. cbn [rbind].
  unfold crypt_blocks. rewrite Lc, <- Ld, M. cbn [Nat.eqb rbind]. rewrite cbc_undo by assumption. reflexivity.
Qed.
Theorem ctr_roundtrip data key iv extra : rand 16%nat = Some iv ->
  exists c, eCTR data key = Ret (inl (iv ++ c)) /\ length c = length data /\ dCTR (iv ++ c) extra key = Ret (inl data).
Proof.
  intros R. pose proof K as (_ & _ & _ & Hr). pose proof (Hr _ _ R) as Li. unfold encrypt_ctr, decrypt_ctr. rewrite cipher_ok, R. eexists. split; [reflexivity|].
  split; [apply xks_length; apply ctr_block_length|]. rewrite upto_app by exact Li. cbn [rbind]. rewrite from_app by exact Li. cbn [rbind]. rewrite xks_undo by apply ctr_block_length. reflexivity.
Qed.
Theorem gcm_roundtrip data key nonce extra : rand 12%nat = Some nonce -> blen data <= gcm_max ->
  exists c, eGCM data key = Ret (inl (nonce ++ c)) /\ length c = (length data + 16)%nat /\ dGCM (nonce ++ c) extra key = Ret (inl data).
Proof.
  intros R M. pose proof K as (_ & _ & Ht & Hr). pose proof (Hr _ _ R) as Li. unfold encrypt_gcm, decrypt_gcm. rewrite cipher_ok, R. unfold seal. rewrite bool_decide_true by exact Li.
  destruct (Z.ltb_spec gcm_max (blen data)); [lia|]. cbn [rbind]. eexists. split; [reflexivity|].
  set (c := xor_key_stream (gcm_block enc (sha256 key) nonce) data). assert (Lc : length c = length data) by (apply xks_length; intros; apply gcm_block_length; exact Li).
  split; [rewrite app_length, Ht, Lc; reflexivity|]. rewrite upto_app by exact Li. cbn [rbind]. rewrite from_app by exact Li. cbn [rbind].
  unfold open. rewrite bool_decide_true by exact Li. rewrite app_length, Ht. destruct (Nat.ltb_spec (length c + 16) 16); [lia|]. destruct (Z.ltb_spec (gcm_max + 16) (blen (c ++ gtag (sha256 key) nonce c))) as [G|_]; [unfold blen in *; rewrite app_length, Ht, Lc in G; lia|].
  replace (length c + 16 - 16)%nat with (length c) by lia. rewrite take_app, drop_app. rewrite bool_decide_true by reflexivity. unfold c. rewrite xks_undo by (intros; apply gcm_block_length; exact Li). reflexivity.
Qed.
(** C81: when the helpers panic *)
Theorem cbc_encrypt_panics data key iv : rand 16%nat = Some iv -> (eCBC data key = Panic <-> (length data mod 16 <> 0)%nat).
Proof.
  intros R. unfold encrypt_cbc. rewrite cipher_ok, R. unfold crypt_blocks. destruct (Nat.eqb_spec (length data mod 16) 0) as [E|E]; cbn [rbind]; split; intros H; first [discriminate|contradiction|reflexivity|exact E].
Qed.
Theorem cbc_decrypt_panics data extra key : dCBC data extra key = Panic <-> (length data < 16)%nat \/ (length data mod 16 <> 0)%nat.
Proof.
  unfold decrypt_cbc. rewrite cipher_ok. destruct (decide (length data < 16)%nat) as [L|L].
  - rewrite cut_short by exact L. split; [intros _; left; exact L|reflexivity].
  - rewrite cut_long by lia. unfold crypt_blocks. rewrite drop_length. replace (length data mod 16)%nat with ((length data - 16) mod 16)%nat by (replace (length data) with (length data - 16 + 1 * 16)%nat at 2 by lia; rewrite Nat.mod_add by lia; reflexivity).
    destruct (Nat.eqb_spec ((length data - 16) mod 16) 0) as [E|E]; cbn [rbind]; split; intros H; first [discriminate | destruct H; [lia|contradiction] | reflexivity | right; exact E].
Qed.
Theorem ctr_decrypt_panics data extra key : dCTR data extra key = Panic <-> (length data < 16)%nat.
Proof.
  unfold decrypt_ctr. rewrite cipher_ok. destruct (decide (length data < 16)%nat) as [L|L]; [rewrite cut_short by exact L|rewrite cut_long by lia]; split; intros H; first [discriminate|reflexivity|assumption|lia].
Qed.
Theorem gcm_decrypt_panics data extra key : dGCM data extra key = Panic <-> (length data < 12)%nat.
Proof.
  unfold decrypt_gcm. rewrite cipher_ok. destruct (decide (length data < 12)%nat) as [L|L]; [rewrite cut_short by exact L; split; [intros _; exact L|reflexivity]|]. rewrite cut_long by lia. split; [|lia]. intros H. exfalso. revert H. unfold open. rewrite bool_decide_true by (rewrite take_length; lia).
  repeat (match goal with |- context [if ?b then _ else _] => destruct b end; try discriminate).
Qed.
Theorem aes_never_panics_refuted : (exists iv, rand 16%nat = Some iv) ->
  (exists data, eCBC data [1] = Panic) /\ (exists data, dCBC data [] [1] = Panic) /\ (exists data, dCTR data [] [1] = Panic) /\ (exists data, dGCM data [] [1] = Panic).
Proof.
  intros [iv R]. split; [exists [0]; apply (cbc_encrypt_panics [0] [1] iv R); cbn; discriminate|]. split; [exists []; apply cbc_decrypt_panics; left; cbn; lia|].
  split; [exists []; apply ctr_decrypt_panics; cbn; lia|exists []; apply gcm_decrypt_panics; cbn; lia].
Qed.
(** what never panics *)
Theorem ctr_encrypt_total data key : exists r, eCTR data key = Ret r.
Proof. unfold encrypt_ctr. rewrite cipher_ok. destruct (rand 16); eexists; reflexivity. Qed.
Theorem gcm_encrypt_panics data key nonce : rand 12%nat = Some nonce -> (eGCM data key = Panic <-> gcm_max < blen data).
Proof.
  intros R. pose proof K as (_ & _ & _ & Hr). unfold encrypt_gcm. rewrite cipher_ok, R. unfold seal. rewrite bool_decide_true by exact (Hr _ _ R). destruct (Z.ltb_spec gcm_max (blen data)); cbn [rbind]; split; intros H'; first [discriminate|reflexivity|assumption|lia].
Qed.
(** a failing random source is reported *)
Theorem aes_rand_error data key : rand 16%nat = None -> rand 12%nat = None ->
  eCBC data key = Ret (inr ErrRand) /\ eCTR data key = Ret (inr ErrRand) /\ eGCM data key = Ret (inr ErrRand).
Proof. intros R1 R2. unfold encrypt_cbc, encrypt_ctr, encrypt_gcm. rewrite cipher_ok, R1, R2. repeat split. Qed.

(** C100: GCM accepts only what Seal makes: whatever DecryptGCM returns data for is the
    nonce followed by the sealed data *)
Theorem gcm_authentic x extra key data : dGCM x extra key = Ret (inl data) ->
  exists nonce c, x = nonce ++ c /\ length nonce = 12%nat /\ seal enc gtag (sha256 key) nonce data = Ret c.
Proof.
  unfold decrypt_gcm. rewrite cipher_ok. destruct (decide (length x < 12)%nat) as [L|L]; [rewrite cut_short by exact L; discriminate|]. rewrite cut_long by lia. intros H.
  exists (take 12 x), (drop 12 x). split; [symmetry; apply take_drop|]. assert (Ln : length (take 12 x) = 12%nat) by (rewrite take_length; lia). split; [exact Ln|].
  unfold open in H. rewrite bool_decide_true in H by exact Ln. set (ct := drop 12 x) in *. destruct (Nat.ltb_spec (length ct) 16) as [|L16]; [discriminate|]. destruct (Z.ltb_spec (gcm_max + 16) (blen ct)) as [|Lm]; [discriminate|].
  case_bool_decide as T; [|discriminate]. injection H as <-. unfold seal. rewrite bool_decide_true by exact Ln.
  assert (Lc : length (xor_key_stream (gcm_block enc (sha256 key) (take 12 x)) (take (length ct - 16) ct)) = (length ct - 16)%nat) by (rewrite xks_length by (intros; apply gcm_block_length; exact Ln); rewrite take_length; lia).
  destruct (Z.ltb_spec gcm_max (blen (xor_key_stream (gcm_block enc (sha256 key) (take 12 x)) (take (length ct - 16) ct)))) as [G|_]; [unfold blen in *; rewrite Lc in G; lia|].
  rewrite xks_undo by (intros; apply gcm_block_length; exact Ln). rewrite T, take_drop. reflexivity.
Qed.
(** a ciphertext whose tag is not the one computed for it is refused *)
Theorem gcm_tamper nonce tag c' extra key : length nonce = 12%nat -> length tag = 16%nat -> gtag (sha256 key) nonce c' <> tag ->
  dGCM (nonce ++ c' ++ tag) extra key = Ret (inr ErrOpen).
Proof.
  intros Ln Lt N. unfold decrypt_gcm. rewrite cipher_ok. rewrite upto_app by exact Ln. cbn [rbind]. rewrite from_app by exact Ln. cbn [rbind].
  unfold open. rewrite bool_decide_true by exact Ln. rewrite app_length, Lt. destruct (Nat.ltb_spec (length c' + 16) 16); [lia|]. destruct (Z.ltb_spec (gcm_max + 16) (blen (c' ++ tag))) as [G|_]; [reflexivity|].
  replace (length c' + 16 - 16)%nat with (length c') by lia. rewrite take_app, drop_app. rewrite bool_decide_false by exact N. reflexivity.
Qed.
(** C101: CTR and CBC do not authenticate.  Every string with a header (and full blocks,
    for CBC) decrypts to something under every key *)
Theorem ctr_accepts_all x extra key : (16 <= length x)%nat -> exists d, dCTR x extra key = Ret (inl d) /\ length d = (length x - 16)%nat.
Proof. intros L. unfold decrypt_ctr. rewrite cipher_ok, cut_long by exact L. eexists. split; [reflexivity|]. rewrite xks_length by apply ctr_block_length. apply drop_length. Qed.
(** and the bits an attacker flips in a CTR ciphertext are the bits flipped in the data *)
Theorem ctr_malleable data key iv mask extra : rand 16%nat = Some iv -> length mask = length data ->
  exists c, eCTR data key = Ret (inl (iv ++ c)) /\ dCTR (iv ++ xor c mask) extra key = Ret (inl (xor data mask)).
Proof.
  intros R Lm. pose proof K as (_ & _ & _ & Hr). pose proof (Hr _ _ R) as Li. unfold encrypt_ctr, decrypt_ctr. rewrite cipher_ok, R. eexists. split; [reflexivity|].
  rewrite upto_app by exact Li. cbn [rbind]. rewrite from_app by exact Li. cbn [rbind]. f_equal. f_equal.
  set (c := xor_key_stream _ data). assert (Lc : length c = length data) by (apply xks_length; apply ctr_block_length). unfold xor_key_stream at 1. rewrite xor_length by lia.
  rewrite xor_swap. f_equal. change (xor_key_stream (ctr_block enc (sha256 key) iv) c = data). apply xks_undo. apply ctr_block_length.
Qed.
(** in CBC, the header's bits flip the first block's *)
Lemma xor_app (a b c d : bytes) : length a = length b -> xor (a ++ c) (b ++ d) = xor a b ++ xor c d.
Proof. intros H. unfold xor. apply zip_with_app. exact H. Qed.
Lemma cbc_dec_iv k iv mask n (c : bytes) : length iv = 16%nat -> length mask = 16%nat -> length c = (16 * S n)%nat ->
  cbc_dec dec k (xor iv mask) (S n) c = xor (take 16 (cbc_dec dec k iv (S n) c)) mask ++ drop 16 (cbc_dec dec k iv (S n) c).
Proof.
  intros Li Lm Lc. pose proof K as (_ & H & _). cbn [cbc_dec]. assert (Ld : length (dec k (take 16 c)) = 16%nat) by (apply H; rewrite take_length; lia).
  assert (Lx : length (xor (dec k (take 16 c)) iv) = 16%nat) by (rewrite xor_length; lia).
  rewrite take_app_alt by (symmetry; exact Lx). rewrite drop_app_alt by (symmetry; exact Lx). f_equal.
  unfold xor. clear. revert iv mask. induction (dec k (take 16 c)) as [|x a IH]; intros iv mask; [reflexivity|]. destruct iv as [|y iv], mask as [|z mask]; cbn [zip_with]; try reflexivity. f_equal; [apply eq_sym, Z.lxor_assoc|apply IH].
Qed.
Theorem cbc_malleable data key iv mask extra : rand 16%nat = Some iv -> (length data mod 16 = 0)%nat -> (16 <= length data)%nat -> length mask = 16%nat ->
  exists c, eCBC data key = Ret (inl (iv ++ c)) /\ dCBC (xor iv mask ++ c) extra key = Ret (inl (xor (take 16 data) mask ++ drop 16 data)).
Proof.
  intros R M Lg Lm. pose proof K as (_ & _ & _ & Hr). pose proof (Hr _ _ R) as Li. unfold encrypt_cbc, decrypt_cbc. rewrite cipher_ok, R. unfold crypt_blocks at 1. rewrite M. cbn [Nat.eqb rbind].
  assert (Ld : length data = (16 * (length data / 16))%nat) by (pose proof (Nat.div_mod (length data) 16 ltac:(lia)); lia).
  eexists. split; [reflexivity|]. pose proof (cbc_enc_length (sha256 key) _ iv data Li Ld) as Lc.
  assert (Lx : length (xor iv mask) = 16%nat) by (rewrite xor_length; lia). rewrite upto_app by exact Lx. cbn [rbind]. rewrite from_app by exact Lx. cbn [rbind].
  unfold crypt_blocks. rewrite Lc, <- Ld, M. cbn [Nat.eqb rbind]. destruct (length data / 16)%nat as [|n] eqn:En; [lia|]. rewrite cbc_dec_iv by assumption. rewrite cbc_undo by assumption. reflexivity.
Qed.
(** reusing an IV gives away the difference of the data *)
Theorem ctr_iv_reuse d1 d2 key iv : rand 16%nat = Some iv -> length d1 = length d2 ->
  exists c1 c2, eCTR d1 key = Ret (inl (iv ++ c1)) /\ eCTR d2 key = Ret (inl (iv ++ c2)) /\ xor c1 c2 = xor d1 d2.
Proof.
  intros R L. unfold encrypt_ctr. rewrite cipher_ok, R. eexists. eexists. split; [reflexivity|]. split; [reflexivity|]. unfold xor_key_stream. rewrite <- L.
  assert (Lk : length (take (length d1) (blocks (ctr_block enc (sha256 key) iv) (length d1 / 16 + 1))) = length d1) by (apply stream_length; apply ctr_block_length).
  revert L Lk. generalize (take (length d1) (blocks (ctr_block enc (sha256 key) iv) (length d1 / 16 + 1))) as s. clear. revert d2. induction d1 as [|x d1 IH]; intros [|y d2] [|z s] L Lk; try discriminate; [reflexivity|].
  unfold xor in *. cbn [zip_with]. f_equal; [|apply IH; cbn in *; lia]. rewrite (Z.lxor_comm y z), Z.lxor_assoc, <- (Z.lxor_assoc z z y), Z.lxor_nilpotent, Z.lxor_0_l. reflexivity.
Qed.
End aes.
(** an instance of the contract: a toy cipher, exclusive or with the first byte of the key *)
Definition toy_sha (key : bytes) : bytes := repeat (unle key mod 256) 32.
Definition toy_enc (k b : bytes) : bytes := xor b (repeat (match k with x :: _ => x | [] => 0 end) 16).
Definition toy_tag (k n c : bytes) : bytes := repeat ((unle k + unle n + 3 * unle c) mod 256) 16.
Definition toy_rand (n : nat) : option bytes := Some (map Z.of_nat (seq 1 n)).
Example aes_contract_ex : aes_contract toy_sha toy_enc toy_enc toy_tag toy_rand.
Proof.
  split; [intros; apply repeat_length|]. split; [|split; [intros; apply repeat_length|]].
  - intros k b H. unfold toy_enc. rewrite !xor_length by (rewrite ?xor_length; rewrite ?repeat_length; lia). rewrite !xor_undo by (rewrite repeat_length; lia). repeat split; exact H.
  - intros n r E. injection E as <-. rewrite map_length, seq_length. reflexivity.
Qed.
Example aes_ex : exists c, encrypt_ctr toy_sha toy_enc toy_rand [1; 2; 3] [9] = Ret (inl c) /\ decrypt_ctr toy_sha toy_enc c [] [9] = Ret (inl [1; 2; 3]) /\ length c = 19%nat /\
  exists g, encrypt_gcm toy_sha toy_enc toy_tag toy_rand [1; 2; 3] [9] = Ret (inl g) /\ length g = 31%nat /\ decrypt_gcm toy_sha toy_enc toy_tag g [] [9] = Ret (inl [1; 2; 3]) /\
  decrypt_gcm toy_sha toy_enc toy_tag g [] [8] = Ret (inr ErrOpen).
Proof. eexists. split; [vm_compute; reflexivity|]. split; [vm_compute; reflexivity|]. split; [reflexivity|]. eexists. split; [vm_compute; reflexivity|]. repeat split; vm_compute; reflexivity. Qed.
(** each theorem on a case that meets its hypotheses *)
Notation KEX := aes_contract_ex.
Example cbc_roundtrip_case := cbc_roundtrip _ _ _ _ _ KEX (repeat 7 32) [9] _ [5] eq_refl eq_refl.
Example ctr_roundtrip_case := ctr_roundtrip _ _ _ _ _ KEX [1; 2; 3] [9] _ [] eq_refl.
Example gcm_roundtrip_case := gcm_roundtrip _ _ _ _ _ KEX [1; 2; 3] [9] _ [] eq_refl ltac:(vm_compute; discriminate).
Example cbc_encrypt_panics_case := proj2 (cbc_encrypt_panics _ _ _ _ _ KEX [1; 2; 3] [9] _ eq_refl) ltac:(vm_compute; discriminate).
Example cbc_decrypt_panics_case := proj2 (cbc_decrypt_panics _ _ _ _ _ KEX (repeat 7 17) [] [9]) ltac:(right; vm_compute; discriminate).
Example ctr_decrypt_panics_case := proj2 (ctr_decrypt_panics _ _ _ _ _ KEX [1; 2; 3] (repeat 7 5) [9]) ltac:(cbn; lia).
Example gcm_decrypt_panics_case := proj2 (gcm_decrypt_panics _ _ _ _ _ KEX [1; 2; 3] (repeat 7 5) [9]) ltac:(cbn; lia).
Example gcm_encrypt_panics_case : encrypt_gcm toy_sha toy_enc toy_tag toy_rand [1; 2; 3] [9] <> Panic.
Proof. intros H. apply (proj1 (gcm_encrypt_panics _ _ _ _ _ KEX [1; 2; 3] [9] _ eq_refl)) in H. vm_compute in H. discriminate. Qed.
Example aes_rand_error_case : aes_contract toy_sha toy_enc toy_enc toy_tag (fun _ => None) /\ encrypt_cbc toy_sha toy_enc (fun _ => None) (repeat 7 32) [9] = Ret (inr ErrRand).
Proof.
  assert (K : aes_contract toy_sha toy_enc toy_enc toy_tag (fun _ => None)) by (destruct KEX as (H1 & H2 & H3 & _); split; [exact H1|]; split; [exact H2|]; split; [exact H3|discriminate]).
  split; [exact K|]. apply (aes_rand_error _ _ _ _ _ K (repeat 7 32) [9] eq_refl eq_refl).
Qed.
Example gcm_authentic_case : exists x, decrypt_gcm toy_sha toy_enc toy_tag x [] [9] = Ret (inl [1; 2; 3]) /\ exists nonce c, x = nonce ++ c /\ length nonce = 12%nat /\ seal toy_enc toy_tag (toy_sha [9]) nonce [1; 2; 3] = Ret c.
Proof. destruct gcm_roundtrip_case as (c & _ & _ & H). eexists. split; [exact H|]. exact (gcm_authentic _ _ _ _ _ KEX _ [] [9] [1; 2; 3] H). Qed.
Example gcm_tamper_case := gcm_tamper _ _ _ _ _ KEX (map Z.of_nat (seq 1 12)) (repeat 0 16) [1; 2; 3] [] [9] eq_refl eq_refl ltac:(vm_compute; discriminate).
Example ctr_accepts_all_case := ctr_accepts_all _ _ _ _ _ KEX (repeat 7 20) [] [9] ltac:(cbn; lia).
Example ctr_malleable_case := ctr_malleable _ _ _ _ _ KEX [1; 2; 3] [9] _ [0; 255; 0] [] eq_refl eq_refl.
Example cbc_malleable_case := cbc_malleable _ _ _ _ _ KEX (repeat 7 32) [9] _ (repeat 1 16) [] eq_refl eq_refl ltac:(cbn; lia) eq_refl.
Example ctr_iv_reuse_case := ctr_iv_reuse _ _ _ _ _ KEX [1; 2; 3] [4; 5; 6] [9] _ eq_refl eq_refl.

Print Assumptions cbc_roundtrip.
Print Assumptions ctr_roundtrip.
Print Assumptions gcm_roundtrip.
Print Assumptions cbc_encrypt_panics.
Print Assumptions cbc_decrypt_panics.
Print Assumptions ctr_decrypt_panics.
Print Assumptions gcm_decrypt_panics.
Print Assumptions aes_never_panics_refuted.
Print Assumptions ctr_encrypt_total.
Print Assumptions gcm_encrypt_panics.
Print Assumptions aes_rand_error.
Print Assumptions gcm_authentic.
Print Assumptions gcm_tamper.
Print Assumptions ctr_accepts_all.
Print Assumptions ctr_malleable.
Print Assumptions cbc_malleable.
Print Assumptions ctr_iv_reuse.
