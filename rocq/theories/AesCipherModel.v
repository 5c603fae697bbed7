(** The primitives behind cryptox/aesx: the block cipher of crypto/aes (FIPS 197, which
    the tables of block.go and the assembly implement), crypto/sha256 (FIPS 180-4) and
    the tag of crypto/cipher's GCM (NIST SP 800-38D).  They are parameters of
    AesModel.v; here they are written out. *)
From Verif Require Import Base PassModel AesModel.
Local Open Scope Z.

(** *** AES *)
(** multiplication by x in GF(2^8), and by the constants of MixColumns;
    cbcx.go 12, 28, ctrx.go 12, 28, gcmx.go 12, 30: crypto/aes, multiplication in the field (FIPS 197, 4.2) *)
Definition xtime (x : Z) : Z := if x <? 128 then 2 * x else Z.lxor (2 * x) 283.
(** cbcx.go 12, 28, ctrx.go 12, 28, gcmx.go 12, 30: crypto/aes, multiplication in the field (FIPS
    197, 4.2) *)
Definition mul2 (x : Z) : Z := xtime x.
(** cbcx.go 12, 28, ctrx.go 12, 28, gcmx.go 12, 30: crypto/aes, multiplication in the field (FIPS
    197, 4.2) *)
Definition mul3 (x : Z) : Z := Z.lxor (xtime x) x.
(** cbcx.go 12, 28, ctrx.go 12, 28, gcmx.go 12, 30: crypto/aes, multiplication in the field (FIPS
    197, 4.2) *)
Definition mul9 (x : Z) : Z := Z.lxor (xtime (xtime (xtime x))) x.
(** cbcx.go 12, 28, ctrx.go 12, 28, gcmx.go 12, 30: crypto/aes, multiplication in the field (FIPS
    197, 4.2) *)
Definition mul11 (x : Z) : Z := Z.lxor (xtime (xtime (xtime x))) (Z.lxor (xtime x) x).
(** cbcx.go 12, 28, ctrx.go 12, 28, gcmx.go 12, 30: crypto/aes, multiplication in the field (FIPS
    197, 4.2) *)
Definition mul13 (x : Z) : Z := Z.lxor (xtime (xtime (xtime x))) (Z.lxor (xtime (xtime x)) x).
(** cbcx.go 12, 28, ctrx.go 12, 28, gcmx.go 12, 30: crypto/aes, multiplication in the field (FIPS
    197, 4.2) *)
Definition mul14 (x : Z) : Z := Z.lxor (xtime (xtime (xtime x))) (Z.lxor (xtime (xtime x)) (xtime x)).
(** the product of two field elements, eight bits of [y];
    cbcx.go 12, 28, ctrx.go 12, 28, gcmx.go 12, 30: crypto/aes, multiplication in the field (FIPS 197, 4.2) *)
Fixpoint gmul (n : nat) (x y : Z) : Z :=
  match n with O => 0 | S n => Z.lxor (if Z.odd y then x else 0) (gmul n (xtime x) (y / 2)) end.
(** x^254, the inverse of x (0 for 0) *)
Fixpoint gpow (n : nat) (x : Z) : Z := match n with O => 1 | S n => gmul 8 x (gpow n x) end.
(** cbcx.go 12, 28, ctrx.go 12, 28, gcmx.go 12, 30: crypto/aes, the substitution boxes (FIPS 197,
    5.1.1 and 5.3.2) *)
Definition rotl8 (x n : Z) : Z := (x * 2 ^ n) mod 256 + x / 2 ^ (8 - n).
(** cbcx.go 12, 28, ctrx.go 12, 28, gcmx.go 12, 30: crypto/aes, the substitution boxes (FIPS 197,
    5.1.1 and 5.3.2) *)
Definition affine (x : Z) : Z :=
  Z.lxor x (Z.lxor (rotl8 x 1) (Z.lxor (rotl8 x 2) (Z.lxor (rotl8 x 3) (Z.lxor (rotl8 x 4) 99)))).
(** sbox0 and sbox1 of crypto/aes/const.go *)
Definition sbox_table : list Z := Eval vm_compute in map (fun n => affine (gpow 254 (Z.of_nat n))) (seq 0 256).
(** cbcx.go 12, 28, ctrx.go 12, 28, gcmx.go 12, 30: crypto/aes, the substitution boxes (FIPS 197,
    5.1.1 and 5.3.2) *)
Definition sbox (x : Z) : Z := nth (Z.to_nat x) sbox_table 0.
(** cbcx.go 12, 28, ctrx.go 12, 28, gcmx.go 12, 30: crypto/aes, the substitution boxes (FIPS 197,
    5.1.1 and 5.3.2) *)
Definition find_byte (x : Z) : nat := (fix go (l : list Z) (n : nat) := match l with [] => 0%nat | y :: l => if x =? y then n else go l (S n) end) sbox_table 0%nat.
(** cbcx.go 12, 28, ctrx.go 12, 28, gcmx.go 12, 30: crypto/aes, the substitution boxes (FIPS 197,
    5.1.1 and 5.3.2) *)
Definition inv_sbox_table : list Z := Eval vm_compute in map (fun n => Z.of_nat (find_byte (Z.of_nat n))) (seq 0 256).
(** cbcx.go 12, 28, ctrx.go 12, 28, gcmx.go 12, 30: crypto/aes, the substitution boxes (FIPS 197,
    5.1.1 and 5.3.2) *)
Definition inv_sbox (x : Z) : Z := nth (Z.to_nat x) inv_sbox_table 0.
(** the state is the block: byte r + 4c is row r, column c;
    cbcx.go 12, 28, ctrx.go 12, 28, gcmx.go 12, 30: crypto/aes, ShiftRows and its inverse (FIPS 197, 5.1.2 and 5.3.1) *)
Definition pick (l : list nat) (s : bytes) : bytes := map (fun i => nth i s 0) l.
(** cbcx.go 12, 28, ctrx.go 12, 28, gcmx.go 12, 30: crypto/aes, ShiftRows and its inverse (FIPS 197,
    5.1.2 and 5.3.1) *)
Definition shift_rows : bytes -> bytes := pick [0; 5; 10; 15; 4; 9; 14; 3; 8; 13; 2; 7; 12; 1; 6; 11]%nat.
(** cbcx.go 12, 28, ctrx.go 12, 28, gcmx.go 12, 30: crypto/aes, ShiftRows and its inverse (FIPS 197,
    5.1.2 and 5.3.1) *)
Definition inv_shift_rows : bytes -> bytes := pick [0; 13; 10; 7; 4; 1; 14; 11; 8; 5; 2; 15; 12; 9; 6; 3]%nat.
(** cbcx.go 12, 28, ctrx.go 12, 28, gcmx.go 12, 30: crypto/aes, MixColumns and its inverse (FIPS
    197, 5.1.3 and 5.3.3) *)
Definition xor4 (a b c d : Z) : Z := Z.lxor (Z.lxor a b) (Z.lxor c d).
(** cbcx.go 12, 28, ctrx.go 12, 28, gcmx.go 12, 30: crypto/aes, MixColumns and its inverse (FIPS
    197, 5.1.3 and 5.3.3) *)
Definition mix_column (a b c d : Z) : bytes :=
  [xor4 (mul2 a) (mul3 b) c d; xor4 a (mul2 b) (mul3 c) d; xor4 a b (mul2 c) (mul3 d); xor4 (mul3 a) b c (mul2 d)].
(** cbcx.go 12, 28, ctrx.go 12, 28, gcmx.go 12, 30: crypto/aes, MixColumns and its inverse (FIPS
    197, 5.1.3 and 5.3.3) *)
Definition inv_mix_column (a b c d : Z) : bytes :=
  [xor4 (mul14 a) (mul11 b) (mul13 c) (mul9 d); xor4 (mul9 a) (mul14 b) (mul11 c) (mul13 d);
   xor4 (mul13 a) (mul9 b) (mul14 c) (mul11 d); xor4 (mul11 a) (mul13 b) (mul9 c) (mul14 d)].
(** cbcx.go 12, 28, ctrx.go 12, 28, gcmx.go 12, 30: crypto/aes, MixColumns and its inverse (FIPS
    197, 5.1.3 and 5.3.3) *)
Fixpoint columns (f : Z -> Z -> Z -> Z -> bytes) (s : bytes) : bytes :=
  match s with a :: b :: c :: d :: s => f a b c d ++ columns f s | _ => [] end.
(** cbcx.go 12, 28, ctrx.go 12, 28, gcmx.go 12, 30: crypto/aes, MixColumns and its inverse (FIPS
    197, 5.1.3 and 5.3.3) *)
Definition mix_columns : bytes -> bytes := columns mix_column.
(** cbcx.go 12, 28, ctrx.go 12, 28, gcmx.go 12, 30: crypto/aes, MixColumns and its inverse (FIPS
    197, 5.1.3 and 5.3.3) *)
Definition inv_mix_columns : bytes -> bytes := columns inv_mix_column.
(** KeyExpansion: words are lists of four bytes;
    cbcx.go 12, 28, ctrx.go 12, 28, gcmx.go 12, 30: crypto/aes, the key expansion (FIPS 197, 5.2) *)
Definition rcon (i : nat) : Z := Nat.iter (i - 1) xtime 1.
(** cbcx.go 12, 28, ctrx.go 12, 28, gcmx.go 12, 30: crypto/aes, the key expansion (FIPS 197, 5.2) *)
Definition rot_word (w : bytes) : bytes := match w with a :: w => w ++ [a] | [] => [] end.
(** cbcx.go 12, 28, ctrx.go 12, 28, gcmx.go 12, 30: crypto/aes, the key expansion (FIPS 197, 5.2) *)
Definition key_word (nk : nat) (ws : list bytes) (i : nat) : bytes :=
  let t := nth (i - 1) ws [] in
  let t := if (i mod nk =? 0)%nat then xor (map sbox (rot_word t)) [rcon (i / nk); 0; 0; 0]
           else if ((6 <? nk) && (i mod nk =? 4))%nat then map sbox t else t in
  xor (nth (i - nk) ws []) t.
(** cbcx.go 12, 28, ctrx.go 12, 28, gcmx.go 12, 30: crypto/aes, the key expansion (FIPS 197, 5.2) *)
Fixpoint expand (n nk : nat) (ws : list bytes) : list bytes :=
  match n with O => ws | S n => expand n nk (ws ++ [key_word nk ws (length ws)]) end.
(** cbcx.go 12, 28, ctrx.go 12, 28, gcmx.go 12, 30: crypto/aes, the key expansion (FIPS 197, 5.2) *)
Fixpoint words (n : nat) (k : bytes) : list bytes := match n with O => [] | S n => take 4 k :: words n (drop 4 k) end.
(** cbcx.go 12, 28, ctrx.go 12, 28, gcmx.go 12, 30: crypto/aes, the key expansion (FIPS 197, 5.2) *)
Definition key_words (k : bytes) : list bytes := let nk := (length k / 4)%nat in expand (4 * (nk + 7) - nk) nk (words nk k).
(** the round keys: the first, those of the rounds with MixColumns, the last;
    cbcx.go 12, 28, ctrx.go 12, 28, gcmx.go 12, 30: crypto/aes, the key expansion (FIPS 197, 5.2) *)
Definition round_key (ws : list bytes) (r : nat) : bytes := take 16 (concat (drop (4 * r) ws) ++ repeat 0 16).
(** cbcx.go 12, 28, ctrx.go 12, 28, gcmx.go 12, 30: crypto/aes, the key expansion (FIPS 197, 5.2) *)
Definition rounds (k : bytes) : nat := (length k / 4 + 6)%nat.
(** cbcx.go 12, 28, ctrx.go 12, 28, gcmx.go 12, 30: crypto/aes, the key expansion (FIPS 197, 5.2) *)
Definition round_keys (k : bytes) : bytes * list bytes * bytes :=
  let ws := key_words k in (round_key ws 0, map (round_key ws) (seq 1 (rounds k - 1)), round_key ws (rounds k)).
(** cbcx.go 12, 28, ctrx.go 12, 28, gcmx.go 12, 30: crypto/aes, Encrypt of a block (FIPS 197, 5.1)
    *)
Definition round (s rk : bytes) : bytes := xor (mix_columns (shift_rows (map sbox s))) rk.
(** cbcx.go 12, 28, ctrx.go 12, 28, gcmx.go 12, 30: crypto/aes, Encrypt of a block (FIPS 197, 5.1)
    *)
Definition cipher (k s : bytes) : bytes :=
  let '(first, mid, last) := round_keys k in
  xor (shift_rows (map sbox (foldl round (xor s first) mid))) last.
(** cbcx.go 12, 28, ctrx.go 12, 28, gcmx.go 12, 30: crypto/aes, Decrypt of a block (FIPS 197, 5.3)
    *)
Definition inv_round (s rk : bytes) : bytes := map inv_sbox (inv_shift_rows (inv_mix_columns (xor s rk))).
(** cbcx.go 12, 28, ctrx.go 12, 28, gcmx.go 12, 30: crypto/aes, Decrypt of a block (FIPS 197, 5.3)
    *)
Definition inv_cipher (k s : bytes) : bytes :=
  let '(first, mid, last) := round_keys k in
  xor (foldl inv_round (map inv_sbox (inv_shift_rows (xor s last))) (rev mid)) first.
(** a block is 16 numbers from 0 to 255; where the key or the block has other numbers,
    which Go cannot have, the functions are completed by the identity *)
Definition is_bytes (b : bytes) : bool := forallb (fun x => (0 <=? x) && (x <? 256)) b.
(** cbcx.go 12, 28, ctrx.go 12, 28, gcmx.go 12, 30: crypto/aes, Encrypt of a block (FIPS 197, 5.1)
    *)
Definition is_block (b : bytes) : bool := (length b =? 16)%nat && is_bytes b.
(** cbcx.go 12, 28, ctrx.go 12, 28, gcmx.go 12, 30: crypto/aes, Encrypt of a block (FIPS 197, 5.1)
    *)
Definition aes_enc (k b : bytes) : bytes := if is_bytes k && is_block b then cipher k b else b.
(** cbcx.go 12, 28, ctrx.go 12, 28, gcmx.go 12, 30: crypto/aes, Decrypt of a block (FIPS 197, 5.3)
    *)
Definition aes_dec (k b : bytes) : bytes := if is_bytes k && is_block b then inv_cipher k b else b.

(** *** SHA-256 *)
Definition u32 (x : Z) : Z := x mod 2 ^ 32.
(** cbcx.go 11, 27, ctrx.go 11, 27, gcmx.go 11, 29: crypto/sha256.Sum256 (FIPS 180-4, 4 to 6) *)
Definition rotr (x n : Z) : Z := Z.lor (Z.shiftr x n) (u32 (Z.shiftl x (32 - n))).
(** cbcx.go 11, 27, ctrx.go 11, 27, gcmx.go 11, 29: crypto/sha256.Sum256 (FIPS 180-4, 4 to 6) *)
Definition sha_k : list Z :=
 [1116352408; 1899447441; 3049323471; 3921009573; 961987163; 1508970993; 2453635748; 2870763221;
  3624381080; 310598401; 607225278; 1426881987; 1925078388; 2162078206; 2614888103; 3248222580;
  3835390401; 4022224774; 264347078; 604807628; 770255983; 1249150122; 1555081692; 1996064986;
  2554220882; 2821834349; 2952996808; 3210313671; 3336571891; 3584528711; 113926993; 338241895;
  666307205; 773529912; 1294757372; 1396182291; 1695183700; 1986661051; 2177026350; 2456956037;
  2730485921; 2820302411; 3259730800; 3345764771; 3516065817; 3600352804; 4094571909; 275423344;
  430227734; 506948616; 659060556; 883997877; 958139571; 1322822218; 1537002063; 1747873779;
  1955562222; 2024104815; 2227730452; 2361852424; 2428436474; 2756734187; 3204031479; 3329325298].
(** cbcx.go 11, 27, ctrx.go 11, 27, gcmx.go 11, 29: crypto/sha256.Sum256 (FIPS 180-4, 4 to 6) *)
Definition sha_init : list Z := [1779033703; 3144134277; 1013904242; 2773480762; 1359893119; 2600822924; 528734635; 1541459225].
(** sha256.go, checkSum: 0x80, zeros up to 56 mod 64, the length in bits as 8 bytes *)
Definition sha_pad (m : bytes) : bytes :=
  let n := length m in
  let z := if (n mod 64 <? 56)%nat then (55 - n mod 64)%nat else (64 + 55 - n mod 64)%nat in
  m ++ [128] ++ repeat 0 z ++ be 8 (Z.of_nat n * 8).
(** cbcx.go 11, 27, ctrx.go 11, 27, gcmx.go 11, 29: crypto/sha256.Sum256 (FIPS 180-4, 4 to 6) *)
Definition sigma (a b c : Z) (shift : bool) (x : Z) : Z := Z.lxor (rotr x a) (Z.lxor (rotr x b) (if shift then Z.shiftr x c else rotr x c)).
(** sha256block.go, blockGeneric: the message schedule *)
Fixpoint schedule (n : nat) (w : list Z) : list Z :=
  match n with
  | O => w
  | S n => let i := length w in
           schedule n (w ++ [u32 (sigma 17 19 10 true (nth (i - 2) w 0) + nth (i - 7) w 0 + sigma 7 18 3 true (nth (i - 15) w 0) + nth (i - 16) w 0)])
  end.
(** cbcx.go 11, 27, ctrx.go 11, 27, gcmx.go 11, 29: crypto/sha256.Sum256 (FIPS 180-4, 4 to 6) *)
Fixpoint words32 (n : nat) (b : bytes) : list Z := match n with O => [] | S n => unbe (take 4 b) :: words32 n (drop 4 b) end.
(** the rounds;
    cbcx.go 11, 27, ctrx.go 11, 27, gcmx.go 11, 29: crypto/sha256.Sum256 (FIPS 180-4, 4 to 6) *)
Definition sha_round (h : Z * Z * Z * Z * Z * Z * Z * Z) (kw : Z * Z) :=
  let '(a, b, c, d, e, f, g, hh) := h in
  let t1 := u32 (hh + sigma 6 11 25 false e + Z.lxor (Z.land e f) (Z.land (2 ^ 32 - 1 - e) g) + kw.1 + kw.2) in
  let t2 := u32 (sigma 2 13 22 false a + Z.lxor (Z.land a b) (Z.lxor (Z.land a c) (Z.land b c))) in
  (u32 (t1 + t2), a, b, c, u32 (d + t1), e, f, g).
(** cbcx.go 11, 27, ctrx.go 11, 27, gcmx.go 11, 29: crypto/sha256.Sum256 (FIPS 180-4, 4 to 6) *)
Definition sha_block (h : list Z) (b : bytes) : list Z :=
  let w := schedule 48 (words32 16 b) in
  match h with
  | [a; b; c; d; e; f; g; hh] =>
      let '(a', b', c', d', e', f', g', h') := foldl sha_round (a, b, c, d, e, f, g, hh) (zip sha_k w) in
      map u32 [a + a'; b + b'; c + c'; d + d'; e + e'; f + f'; g + g'; hh + h']
  | _ => h
  end.
(** cbcx.go 11, 27, ctrx.go 11, 27, gcmx.go 11, 29: crypto/sha256.Sum256 (FIPS 180-4, 4 to 6) *)
Fixpoint sha_blocks (n : nat) (h : list Z) (m : bytes) : list Z :=
  match n with O => h | S n => sha_blocks n (sha_block h (take 64 m)) (drop 64 m) end.
(** cbcx.go 11, 27, ctrx.go 11, 27, gcmx.go 11, 29: crypto/sha256.Sum256 (FIPS 180-4, 4 to 6) *)
Definition sha256_sum (m : bytes) : bytes :=
  let p := sha_pad m in concat (map (be 4) (sha_blocks (length p / 64) sha_init p)).

(** *** the GCM tag *)
(** the product in GF(2^128) in GCM's order of bits: the first bit of a block is the most
    significant one of the number *)
Fixpoint ghash_mul (n : nat) (x v z : Z) : Z :=
  match n with
  | O => z
  | S n => ghash_mul n x (if Z.odd v then Z.lxor (v / 2) (225 * 2 ^ 120) else v / 2) (if Z.testbit x (Z.of_nat n) then Z.lxor z v else z)
  end.
(** gcmx.go 24, 40: the tag that crypto/cipher computes in Seal and Open (SP 800-38D, 6.3 and 6.4)
    *)
Definition ghash_step (h y : Z) (b : bytes) : Z := ghash_mul 128 (Z.lxor y (unbe b)) h 0.
(** the last block is filled up with zeros;
    gcmx.go 24, 40: the tag that crypto/cipher computes in Seal and Open (SP 800-38D, 6.3 and 6.4) *)
Fixpoint ghash_data (n : nat) (h y : Z) (c : bytes) : Z :=
  match n with O => y | S n => ghash_data n h (ghash_step h y (take 16 (take 16 c ++ repeat 0 16))) (drop 16 c) end.
(** GHASH of a ciphertext without additional data: its blocks, then the two lengths in bits;
    gcmx.go 24, 40: the tag that crypto/cipher computes in Seal and Open (SP 800-38D, 6.3 and 6.4) *)
Definition ghash (h : Z) (c : bytes) : Z :=
  ghash_step h (ghash_data ((length c + 15) / 16) h 0 c) (be 8 0 ++ be 8 (Z.of_nat (length c) * 8)).
(** gcm.go, auth: the tag is masked with the encrypted first counter *)
Definition gcm_tag (k nonce c : bytes) : bytes :=
  take 16 (xor (be 16 (ghash (unbe (aes_enc k (repeat 0 16))) c)) (aes_enc k (nonce ++ be 4 1)) ++ repeat 0 16).
