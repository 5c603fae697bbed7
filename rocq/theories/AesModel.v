(** Model of cryptox/aesx (cbcx.go, ctrx.go, gcmx.go).  The block cipher, SHA-256 and the
    GCM tag are parameters; the modes of operation are transcribed from crypto/cipher. *)
From Verif Require Import Base PassModel.
Local Open Scope Z.

(** a slice expression on [data]: [extra] is what lies between its length and its capacity;
    cbcx.go 33, ctrx.go 33, gcmx.go 39 *)
Definition upto (data extra : bytes) (n : nat) : res bytes := if (n <=? length data + length extra)%nat then Ret (take n (data ++ extra)) else Panic.
(** cbcx.go 33, ctrx.go 33, gcmx.go 39: the rest of the slice *)
Definition from (data : bytes) (n : nat) : res bytes := if (n <=? length data)%nat then Ret (drop n data) else Panic.

(** crypto/cipher, xorBytes, under cbcx.go 22, 36, ctrx.go 22, 36, gcmx.go 24, 40 *)
Definition xor (a b : bytes) : bytes := zip_with Z.lxor a b.
(** big-endian numbers; the counters of crypto/cipher under ctrx.go 22, 36 and gcmx.go 24, 40 *)
Fixpoint unbe_go (acc : Z) (l : bytes) : Z := match l with [] => acc | b :: l => unbe_go (acc * 256 + b) l end.
(** the number that bytes stand for; counters under ctrx.go 22, 36 and gcmx.go 24, 40 *)
Definition unbe (l : bytes) : Z := unbe_go 0 l.
(** the bytes of a number; counters under ctrx.go 22, 36 and gcmx.go 24, 40 *)
Fixpoint be (n : nat) (v : Z) : bytes := match n with O => [] | S n => be n (v / 256) ++ [v mod 256] end.

(** the errors that cbcx.go 13-19, ctrx.go 13-19, gcmx.go 13-23 and 41-43 return *)
Inductive aeserr := ErrKeySize | ErrRand | ErrOpen.
Section aes.
Context (sha256 : bytes -> bytes).
(** aes.NewCipher(key): Encrypt and Decrypt of one block *)
Context (enc dec : bytes -> bytes -> bytes).
(** the GCM tag of a ciphertext: key, nonce, ciphertext (no additional data) *)
Context (gtag : bytes -> bytes -> bytes -> bytes).
(** aes.NewCipher fails on other key lengths; cbcx.go 12, 28, ctrx.go 12, 28, gcmx.go 12, 30 *)
Definition new_cipher (k : bytes) : option aeserr := if bool_decide (length k = 16 \/ length k = 24 \/ length k = 32)%nat then None else Some ErrKeySize.

(** *** cipher.NewCBCEncrypter / NewCBCDecrypter, CryptBlocks; cbcx.go 20-22 *)
Fixpoint cbc_enc (k prev : bytes) (n : nat) (src : bytes) : bytes :=
  match n with
  | O => []
  | S n => let c := enc k (xor (take 16 src) prev) in c ++ cbc_enc k c n (drop 16 src)
  end.
(** cbcx.go 34-36 *)
Fixpoint cbc_dec (k prev : bytes) (n : nat) (src : bytes) : bytes :=
  match n with
  | O => []
  | S n => xor (dec k (take 16 src)) prev ++ cbc_dec k (take 16 src) n (drop 16 src)
  end.
(** CryptBlocks panics on input that is not full blocks; cbcx.go 22, 36 *)
Definition crypt_blocks (f : nat -> bytes -> bytes) (src : bytes) : res bytes :=
  if (length src mod 16 =? 0)%nat then Ret (f (length src / 16)%nat src) else Panic.

(** *** cipher.NewCTR, XORKeyStream; ctrx.go 20, 22, 34, 36 *)
Fixpoint blocks (blk : nat -> bytes) (n : nat) : bytes := match n with O => [] | S n => blocks blk n ++ blk n end.
(** block i of the key stream is the encrypted counter, a 128-bit number that wraps around *)
Definition ctr_block (k iv : bytes) (i : nat) : bytes := enc k (be 16 ((unbe iv + Z.of_nat i) mod 2^128)).
(** ctrx.go 22, 36 *)
Definition xor_key_stream (blk : nat -> bytes) (src : bytes) : bytes := xor src (take (length src) (blocks blk (length src / 16 + 1))).

(** *** cipher.NewGCM: nonces of 12 bytes, tags of 16; the counter is the last 32 bits and
    starts at 2 *)
Definition gcm_block (k nonce : bytes) (i : nat) : bytes := enc k (nonce ++ be 4 ((2 + Z.of_nat i) mod 2^32)).
(** gcmx.go 24, 40: the longest message that crypto/cipher takes *)
Definition gcm_max : Z := (2^32 - 2) * 16.
(** gcmx.go 24: aead.Seal *)
Definition seal (k nonce data : bytes) : res bytes :=
  if bool_decide (length nonce = 12%nat) then
    if gcm_max <? blen data then Panic else
    let c := xor_key_stream (gcm_block k nonce) data in
    Ret (c ++ gtag k nonce c)
  else Panic.
(** gcmx.go 40: aead.Open *)
Definition open (k nonce ct : bytes) : res (bytes + aeserr) :=
  if bool_decide (length nonce = 12%nat) then
    if (length ct <? 16)%nat then Ret (inr ErrOpen) else
    if gcm_max + 16 <? blen ct then Ret (inr ErrOpen) else
    let c := take (length ct - 16) ct in
    let tag := drop (length ct - 16) ct in
    if bool_decide (gtag k nonce c = tag) then Ret (inl (xor_key_stream (gcm_block k nonce) c)) else Ret (inr ErrOpen)
  else Panic.

(** *** aesx; [rand n] is what rand.Read puts into n bytes *)
Context (rand : nat -> option bytes).
(** cbcx.go:10-24 *)
Definition encrypt_cbc (data key : bytes) : res (bytes + aeserr) :=
  let k := sha256 key in
  match new_cipher k with
  | Some e => Ret (inr e)
  | None =>
      match rand 16%nat with
      | None => Ret (inr ErrRand)
      | Some iv => let! r := crypt_blocks (cbc_enc k iv) data in Ret (inl (iv ++ r))
      end
  end.
(** cbcx.go:26-38 *)
Definition decrypt_cbc (data extra key : bytes) : res (bytes + aeserr) :=
  let k := sha256 key in
  match new_cipher k with
  | Some e => Ret (inr e)
  | None =>
      let! iv := upto data extra 16 in
      let! c := from data 16 in
      let! r := crypt_blocks (cbc_dec k iv) c in Ret (inl r)
  end.
(** ctrx.go:10-24 *)
Definition encrypt_ctr (data key : bytes) : res (bytes + aeserr) :=
  let k := sha256 key in
  match new_cipher k with
  | Some e => Ret (inr e)
  | None =>
      match rand 16%nat with
      | None => Ret (inr ErrRand)
      | Some iv => Ret (inl (iv ++ xor_key_stream (ctr_block k iv) data))
      end
  end.
(** ctrx.go:26-38 *)
Definition decrypt_ctr (data extra key : bytes) : res (bytes + aeserr) :=
  let k := sha256 key in
  match new_cipher k with
  | Some e => Ret (inr e)
  | None =>
      let! iv := upto data extra 16 in
      let! c := from data 16 in
      Ret (inl (xor_key_stream (ctr_block k iv) c))
  end.
(** gcmx.go:10-26 *)
Definition encrypt_gcm (data key : bytes) : res (bytes + aeserr) :=
  let k := sha256 key in
  match new_cipher k with
  | Some e => Ret (inr e)
  | None =>
      match rand 12%nat with
      | None => Ret (inr ErrRand)
      | Some nonce => let! r := seal k nonce data in Ret (inl (nonce ++ r))
      end
  end.
(** gcmx.go:28-45 *)
Definition decrypt_gcm (data extra key : bytes) : res (bytes + aeserr) :=
  let k := sha256 key in
  match new_cipher k with
  | Some e => Ret (inr e)
  | None =>
      let! nonce := upto data extra 12 in
      let! c := from data 12 in
      open k nonce c
  end.
End aes.
