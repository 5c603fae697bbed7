(** Model of the text of a bcrypt hash: what cryptox/bcryptx/bcryptx.go:23 and 31 get from
    golang.org/x/crypto/bcrypt, transcribed down to the Blowfish rounds, which remain a
    parameter.  Strings are lists of bytes. *)
From Verif Require Import Base PassModel BcryptModel.
Local Open Scope Z.

(** bcrypt's base64 alphabet: ./A-Za-z0-9 *)
Definition bc_char (i : Z) : Z :=
  if i =? 0 then 46 else if i =? 1 then 47 else if i <? 28 then 65 + (i - 2) else if i <? 54 then 97 + (i - 28) else 48 + (i - 54).
(** the value of a letter of bcrypt's base64, bcryptx.go 23, 31 *)
Definition bc_val (c : Z) : option Z :=
  if c =? 46 then Some 0 else if c =? 47 then Some 1
  else if (65 <=? c) && (c <=? 90) then Some (c - 65 + 2)
  else if (97 <=? c) && (c <=? 122) then Some (c - 97 + 28)
  else if (48 <=? c) && (c <=? 57) then Some (c - 48 + 54)
  else None.
(** base64.go, base64Encode: without the padding *)
Fixpoint bc_encode (s : bytes) : bytes :=
  match s with
  | a :: b :: c :: r =>
      let v := a * 65536 + b * 256 + c in
      bc_char (v / 262144) :: bc_char (v / 4096 mod 64) :: bc_char (v / 64 mod 64) :: bc_char (v mod 64) :: bc_encode r
  | [a; b] => let v := a * 65536 + b * 256 in [bc_char (v / 262144); bc_char (v / 4096 mod 64); bc_char (v / 64 mod 64)]
  | [a] => let v := a * 65536 in [bc_char (v / 262144); bc_char (v / 4096 mod 64)]
  | [] => []
  end.
(** base64.go, base64Decode of a salt, 22 characters: two padding characters are appended,
    so what remains when line breaks are skipped has to be two more than full groups *)
Definition bc_decode_salt (s : bytes) : option bytes :=
  match mapM bc_val (List.filter not_break s) with
  | Some l => if (length l mod 4 =? 2)%nat then b64_groups l else None
  | None => None
  end.

(** strconv.Atoi on two bytes, and checkCost: 4 to 31 *)
Definition bc_digit (c : Z) : option Z := if (48 <=? c) && (c <=? 57) then Some (c - 48) else None.
(** the two digits of the cost, bcryptx.go 31 *)
Definition bc_atoi (a b : Z) : option Z :=
  if a =? 43 then bc_digit b
  else if a =? 45 then match bc_digit b with Some d => Some (- d) | None => None end
  else match bc_digit a, bc_digit b with Some x, Some y => Some (10 * x + y) | _, _ => None end.
(** checkCost, bcryptx.go 23, 31 *)
Definition bc_check_cost (c : Z) : bool := (4 <=? c) && (c <=? 31).

(** the struct hashed; minor 0: there is none; bcryptx.go 23, 31 *)
Record hashed := Hashed { h_hash : bytes; h_salt : bytes; h_cost : Z; h_major : Z; h_minor : Z }.
(** newFromHash: decodeVersion, decodeCost, the salt and the rest.  The bytes after the
    version and after the cost are skipped, not checked; bcryptx.go 31 *)
Definition new_from_hash (t : bytes) : option hashed :=
  if blen t <? 59 then None else
  match t with
  | p :: major :: m :: r =>
      if negb (p =? 36) then None else
      if 50 <? major then None else
      let '(minor, r) := if m =? 36 then (0, r) else (m, drop 1 r) in
      match r with
      | a :: b :: _ :: r =>
          match bc_atoi a b with
          | Some c => if bc_check_cost c then Some (Hashed (drop 22 r) (take 22 r) c major minor) else None
          | None => None
          end
      | _ => None
      end
  | _ => None
  end.
(** copy(arr[n:], src) bcryptx.go 23 *)
Definition bc_copy (arr : bytes) (n : nat) (src : bytes) : bytes :=
  let k := Nat.min (length arr - n) (length src) in take n arr ++ take k src ++ drop (n + k) arr.
(** fmt.Sprintf("%02d", cost), for costs that checkCost lets through *)
Definition two_digits (c : Z) : bytes := [48 + c / 10; 48 + c mod 10].
(** hashed.Hash; bcryptx.go 23 *)
Definition hashed_text (p : hashed) : bytes :=
  let arr := repeat 0 60 in
  let arr := <[0%nat := 36]> arr in
  let arr := <[1%nat := h_major p]> arr in
  let '(arr, n) := if h_minor p =? 0 then (arr, 2%nat) else (<[2%nat := h_minor p]> arr, 3%nat) in
  let arr := <[n := 36]> arr in
  let n := (n + 1)%nat in
  let arr := bc_copy arr n (two_digits (h_cost p)) in
  let n := (n + 2)%nat in
  let arr := <[n := 36]> arr in
  let n := (n + 1)%nat in
  let arr := bc_copy arr n (h_salt p) in
  let n := (n + 22)%nat in
  let arr := bc_copy arr n (h_hash p) in
  let n := (n + 31)%nat in
  take n arr.

Section rec.
(** what the Blowfish rounds make of cost, salt and key schedule: 23 bytes *)
Context (blow : Z -> bytes -> bytes -> bytes).
(** bcrypt(): the digest as text; bcryptx.go 23, 31 *)
Definition bc_digest (cost : Z) (salt : bytes) (pw : bytes) : option bytes :=
  match bc_decode_salt salt with Some csalt => Some (bc_encode (blow cost csalt (key_schedule pw))) | None => None end.
(** GenerateFromPassword with the default cost; [rand]: the 16 bytes of the salt *)
Definition bc_generate (rand : option bytes) (pw : bytes) (cost : Z) : bytes + bcerr :=
  match rand with
  | None => inr ErrGenerate
  | Some salt =>
      let s := bc_encode salt in
      match bc_digest cost s pw with
      | Some d => inl (hashed_text (Hashed d s cost 50 97))
      | None => inr ErrGenerate
      end
  end.
(** CompareHashAndPassword; bcryptx.go 31 *)
Definition bc_compare (t pw : bytes) : option bcerr :=
  match new_from_hash t with
  | None => Some ErrMalformed
  | Some p =>
      match bc_digest (h_cost p) (h_salt p) pw with
      | None => Some ErrMalformed
      | Some d => if bool_decide (hashed_text p = hashed_text (Hashed d (h_salt p) (h_cost p) (h_major p) (h_minor p))) then None else Some ErrMismatched
      end
  end.
(** bcryptx.go:19-28 *)
Definition bc_encrypt (rand : option bytes) (pw : bytes) : bytes + bcerr :=
  if 72 <? blen pw then inr ErrPasswordTooLong else bc_generate rand pw 10.
(** bcryptx.go:30-39 *)
Definition bc_decrypt (t pw : bytes) : bool * option bcerr :=
  match bc_compare t pw with Some e => (false, Some e) | None => (true, None) end.
End rec.
