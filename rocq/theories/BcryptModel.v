(** Model of cryptox/bcryptx (bcryptx.go).  golang.org/x/crypto/bcrypt turns the password
    into the 72 bytes of Blowfish's key schedule; the rest of the hash is a parameter. *)
From Verif Require Import Base PassModel.
Local Open Scope Z.

(** the key: the password and a NUL byte, over and over, until the 18 words of four bytes
    that Blowfish xors into its P-array are full *)
Definition key_schedule (pw : bytes) : bytes := map (fun i => nth (i mod (length pw + 1)) (pw ++ [0]) 0) (seq 0 72).

(** the errors of bcryptx.go 19-39 *)
Inductive bcerr := ErrPasswordTooLong | ErrGenerate | ErrMismatched | ErrMalformed.
Section bcrypt.
(** the digest, of a cost, a salt and a key schedule *)
Context (digest : Z -> bytes -> bytes -> bytes).
(** the text of a hash: cost, salt and digest *)
Context (render : Z * bytes * bytes -> bytes) (parse : bytes -> option (Z * bytes * bytes)).
(** bcrypt.GenerateFromPassword; rand.Read may fail; bcryptx.go 23 *)
Definition generate (rand : option bytes) (pw : bytes) (cost : Z) : bytes + bcerr :=
  match rand with None => inr ErrGenerate | Some salt => inl (render (cost, salt, digest cost salt (key_schedule pw))) end.
(** bcrypt.CompareHashAndPassword; None is nil; bcryptx.go 31 *)
Definition compare (enc pw : bytes) : option bcerr :=
  match parse enc with
  | None => Some ErrMalformed
  | Some (cost, salt, d) => if bool_decide (d = digest cost salt (key_schedule pw)) then None else Some ErrMismatched
  end.
(** bcryptx.go:19-28 *)
Definition encrypt (rand : option bytes) (pw : bytes) : bytes + bcerr :=
  if 72 <? blen pw then inr ErrPasswordTooLong else generate rand pw 10.
(** bcryptx.go:30-39 *)
Definition decrypt (enc pw : bytes) : bool * option bcerr :=
  match compare enc pw with Some e => (false, Some e) | None => (true, None) end.
End bcrypt.
