(** Model of cryptox/passhashx: the record format (internal/passhash.vstruct.go), Hash,
    Verify and the Base64 variants (passhash.go, alg.go).  A byte slice is a list of
    integers; its capacity is its length. *)
From Verif Require Import Base.
Local Open Scope Z.

Notation bytes := (list Z).
(** len of a byte slice, passhash.vstruct.go 132, 155, 182, 193 and passhash.go 92 *)
Definition blen (s : bytes) : Z := Z.of_nat (length s).
(** an index expression; passhash.vstruct.go 93, 97-106, 111-127, 136-154 *)
Definition at_ (s : bytes) (i : nat) : res Z := match s !! i with Some b => Ret b | None => Panic end.
(** a slice expression; passhash.vstruct.go 107, 128 *)
Definition sub (s : bytes) (lo hi : Z) : res bytes :=
  if (0 <=? lo) && (lo <=? hi) && (hi <=? blen s) then Ret (take (Z.to_nat (hi - lo)) (drop (Z.to_nat lo) s)) else Panic.

(** *** internal/passhash.vstruct.go *)
(** 99-106: eight bytes, little end first *)
Definition read8 (s : bytes) (i : nat) : res Z :=
  let! b0 := at_ s i in let! b1 := at_ s (i + 1) in let! b2 := at_ s (i + 2) in let! b3 := at_ s (i + 3) in
  let! b4 := at_ s (i + 4) in let! b5 := at_ s (i + 5) in let! b6 := at_ s (i + 6) in let! b7 := at_ s (i + 7) in
  Ret (u64 (b0 + b1 * 2^8 + b2 * 2^16 + b3 * 2^24 + b4 * 2^32 + b5 * 2^40 + b6 * 2^48 + b7 * 2^56)).
(** 92-94 *)
Definition ph_param (s : bytes) : res Z := at_ s 0.
(** 96-108 *)
Definition ph_salt (s : bytes) : res bytes :=
  let! _ := at_ s 8 in
  let! off1 := read8 s 1 in
  sub s 17 off1.
(** 110-129 *)
Definition ph_hash (s : bytes) : res bytes :=
  let! _ := at_ s 16 in
  let! off0 := read8 s 1 in
  let! off1 := read8 s 9 in
  sub s off0 off1.
(** 131-157 *)
Definition ph_validate (s : bytes) : res bool :=
  if blen s <? 17 then Ret false else
  let! _ := at_ s 16 in
  let! off1 := read8 s 1 in
  let! off2 := read8 s 9 in
  Ret ((17 <=? off1) && (off1 <=? off2) && (off2 <=? u64 (blen s))).
(** writes into the buffer; passhash.vstruct.go 179 *)
Definition put (s : bytes) (i : nat) (b : Z) : res bytes := if (Z.of_nat i <? blen s) then Ret (<[i := b]> s) else Panic.
(** eight bytes into the buffer, passhash.vstruct.go 183-190, 194-201 *)
Definition put8 (s : bytes) (i : nat) (v : Z) : res bytes :=
  let! s := put s i (v mod 256) in let! s := put s (i + 1) (v / 2^8 mod 256) in let! s := put s (i + 2) (v / 2^16 mod 256) in
  let! s := put s (i + 3) (v / 2^24 mod 256) in let! s := put s (i + 4) (v / 2^32 mod 256) in let! s := put s (i + 5) (v / 2^40 mod 256) in
  let! s := put s (i + 6) (v / 2^48 mod 256) in let! s := put s (i + 7) (v / 2^56 mod 256) in Ret s.
(** [copy(dst[lo:hi], src)]: as many bytes as fit; passhash.vstruct.go 191, 202 *)
Definition copy_into (dst : bytes) (lo hi : Z) (src : bytes) : res bytes :=
  let! d := sub dst lo hi in
  let n := Nat.min (length d) (length src) in
  Ret (take (Z.to_nat lo) dst ++ take n src ++ drop (Z.to_nat lo + n) dst).
(** 177-204 *)
Definition serialize (dst : bytes) (param : Z) (salt hash : bytes) : res bytes :=
  let! _ := at_ dst 16 in
  let! dst := put dst 0 param in
  let index := 17 in
  let tmp1 := u64 (blen salt + index) in
  let! dst := put8 dst 1 tmp1 in
  let! dst := copy_into dst index tmp1 salt in
  let index := u64 (index + blen salt) in
  let tmp2 := u64 (blen hash + index) in
  let! dst := put8 dst 9 tmp2 in
  copy_into dst index tmp2 hash.
(** 206-211 *)
Definition new_ph (param : Z) (salt hash : bytes) : res bytes :=
  serialize (repeat 0 (17 + length salt + length hash)) param salt hash.

(** *** base64.RawURLEncoding *)
Definition enc_char (i : Z) : Z :=
  if i <? 26 then 65 + i else if i <? 52 then 97 + (i - 26) else if i <? 62 then 48 + (i - 52) else if i =? 62 then 45 else 95.
(** encoding/base64, called at passhash.go 145 *)
Definition dec_char (c : Z) : option Z :=
  if (65 <=? c) && (c <=? 90) then Some (c - 65)
  else if (97 <=? c) && (c <=? 122) then Some (c - 97 + 26)
  else if (48 <=? c) && (c <=? 57) then Some (c - 48 + 52)
  else if c =? 45 then Some 62 else if c =? 95 then Some 63 else None.
(** EncodeToString: three bytes to four characters, no padding; called at passhash.go 115 *)
Fixpoint b64_encode (s : bytes) : bytes :=
  match s with
  | a :: b :: c :: r =>
      let v := a * 65536 + b * 256 + c in
      enc_char (v / 262144) :: enc_char (v / 4096 mod 64) :: enc_char (v / 64 mod 64) :: enc_char (v mod 64) :: b64_encode r
  | [a; b] => let v := a * 65536 + b * 256 in [enc_char (v / 262144); enc_char (v / 4096 mod 64); enc_char (v / 64 mod 64)]
  | [a] => let v := a * 65536 in [enc_char (v / 262144); enc_char (v / 4096 mod 64)]
  | [] => []
  end.
(** DecodeString: line breaks are skipped; then four characters to three bytes, and the
    rest; the bits left over in the last character are ignored; called at passhash.go 145 *)
Fixpoint b64_groups (s : bytes) : option bytes :=
  match s with
  | [] => Some []
  | [_] => None
  | [a; b] => let v := a * 262144 + b * 4096 in Some [v / 65536 mod 256]
  | [a; b; c] => let v := a * 262144 + b * 4096 + c * 64 in Some [v / 65536 mod 256; v / 256 mod 256]
  | a :: b :: c :: d :: r =>
      let v := a * 262144 + b * 4096 + c * 64 + d in
      match b64_groups r with Some t => Some (v / 65536 mod 256 :: v / 256 mod 256 :: v mod 256 :: t) | None => None end
  end.
(** encoding/base64, called at passhash.go 145 *)
Definition not_break (c : Z) : bool := negb ((c =? 10) || (c =? 13)).
(** encoding/base64, called at passhash.go 145 *)
Definition b64_decode (s : bytes) : option bytes :=
  match mapM dec_char (List.filter not_break s) with Some l => b64_groups l | None => None end.

(** *** passhash.go *)
Inductive pherr := ErrInvalidPassHash | ErrUnknownAlgorithm | ErrHashMismatch | ErrReadSaltFailed | ErrInvalidSecurityLevel | ErrBase64.
(** 68-80 *)
Definition security_level (sl : Z) : option Z :=
  if sl =? 1 then Some 0 else if sl =? 2 then Some 1 else if sl =? 3 then Some 2 else if sl =? 4 then Some 3 else None.
(** 33-59 *)
Definition salt_len (param : Z) : Z := 16.
(** passhash.go 47-59: 32 for every parameter *)
Definition hash_len (param : Z) : Z := 32.
Section kdf.
(** argon2.IDKey(password, salt, time, memory, threads, keyLen) *)
Context (idkey : bytes -> bytes -> Z -> Z -> Z -> Z -> bytes).
(** alg.go:8-50 and passhash.go:61-66; None is out of the array *)
Definition alg (param : Z) : option (bytes -> bytes -> bytes) :=
  if param =? 0 then Some (fun pw salt => idkey pw salt 20 (64 * 1024) 4 (hash_len 0))
  else if param =? 1 then Some (fun pw salt => idkey pw salt 32 (4 * 1024) 1 (hash_len 1))
  else if param =? 2 then Some (fun pw salt => idkey pw salt 4 (37 * 1024) 1 (hash_len 2))
  else if param =? 3 then Some (fun pw salt => idkey pw salt 8 (15 * 1024) 1 (hash_len 3))
  else None.
(** 82-108; [rand n] is what rand.Read puts into n bytes, None if it fails *)
Definition hash (rand : Z -> option bytes) (pw : bytes) (sl : Z) : res (bytes + pherr) :=
  match security_level sl with
  | None => Ret (inr ErrInvalidSecurityLevel)
  | Some param =>
      match rand (salt_len param) with
      | None => Ret (inr ErrReadSaltFailed)
      | Some salt =>
          match alg param with
          | Some f => let! r := new_ph param salt (f pw salt) in Ret (inl r)
          | None => Ret (inr ErrUnknownAlgorithm)
          end
      end
  end.
(** 110-116 *)
Definition hash_base64 (rand : Z -> option bytes) (pw : bytes) (sl : Z) : res (bytes + pherr) :=
  let! h := hash rand pw sl in
  Ret (match h with inl r => inl (b64_encode r) | inr e => inr e end).
(** 118-142; None is nil *)
Definition verify (pw phash : bytes) : res (option pherr) :=
  let! ok := ph_validate phash in
  if negb ok then Ret (Some ErrInvalidPassHash) else
  let! param := ph_param phash in
  match alg param with
  | None => Ret (Some ErrUnknownAlgorithm)
  | Some f =>
      let! salt := ph_salt phash in
      let! h := ph_hash phash in
      if bool_decide (f pw salt = h) then Ret None else Ret (Some ErrHashMismatch)
  end.
(** 144-150 *)
Definition verify_base64 (pw phash : bytes) : res (option pherr) :=
  match b64_decode phash with None => Ret (Some ErrBase64) | Some r => verify pw r end.
End kdf.
