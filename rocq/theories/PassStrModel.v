(** Model of the rest of cryptox/passhashx/internal/passhash.vstruct.go: Parameter.String,
    Match, MatchS and PasswordHash.String.  A string is its list of bytes. *)
From Coq Require Import Strings.String Strings.Ascii.
From Verif Require Import Base ConvModel PassModel.
Local Open Scope Z.

(** string literals of passhash.vstruct.go 34-42, 161-173 *)
Definition str (s : string) : list Z := map (fun a => Z.of_N (N_of_ascii a)) (list_ascii_of_string s).
Arguments str : simpl never.
(** 31-43 *)
Definition param_string (e : Z) : list Z :=
  if e =? 0 then str "Argon2ID_High" else if e =? 1 then str "Argon2ID_Low"
  else if e =? 2 then str "Argon2ID_Mobile_High" else if e =? 3 then str "Argon2ID_Mobile_Low" else [].
(** a call of a function value, None is nil; passhash.vstruct.go 53-59, 71-77 *)
Definition call {S} (f : option (S -> res S)) (s : S) : res S := match f with Some f => f s | None => Panic end.
(** 45-61 *)
Definition param_match {S} (e : Z) (on0 on1 on2 on3 : option (S -> res S)) (s : S) : res S :=
  if e =? 0 then call on0 s else if e =? 1 then call on1 s else if e =? 2 then call on2 s else if e =? 3 then call on3 s else Ret s.
(** 63-79: the same, from the fields of a struct *)
Record handlers (S : Type) := Handlers { on_high : option (S -> res S); on_low : option (S -> res S); on_mhigh : option (S -> res S); on_mlow : option (S -> res S) }.
Arguments on_high {S}. Arguments on_low {S}. Arguments on_mhigh {S}. Arguments on_mlow {S}. Arguments Handlers {S}.
(** passhash.vstruct.go 63-79: Parameter.MatchS *)
Definition param_match_s {S} (e : Z) (h : handlers S) (s : S) : res S :=
  if e =? 0 then call (on_high h) s else if e =? 1 then call (on_low h) s else if e =? 2 then call (on_mhigh h) s else if e =? 3 then call (on_mlow h) s else Ret s.
(** fmt.Sprint of a byte slice: the numbers in decimal, blanks between them, in brackets;
    passhash.vstruct.go 169, 172 *)
Fixpoint spaced (l : list (list Z)) : list Z :=
  match l with [] => [] | [x] => x | x :: l => x ++ 32 :: spaced l end.
(** fmt.Sprint, called at passhash.vstruct.go 169, 172 *)
Definition sprint_bytes (s : bytes) : list Z := 91 :: spaced (map format_uint s) ++ [93].
(** 159-175 *)
Definition ph_string (s : bytes) : res (list Z) :=
  let! ok := ph_validate s in
  if negb ok then Ret (str "PasswordHash (invalid)") else
  let b := str "PasswordHash {" in
  let b := b ++ str "Param: " in
  let! p := ph_param s in
  let b := b ++ param_string p in
  let b := b ++ str ", " in
  let b := b ++ str "Salt: " in
  let! salt := ph_salt s in
  let b := b ++ sprint_bytes salt in
  let b := b ++ str ", " in
  let b := b ++ str "Hash: " in
  let! h := ph_hash s in
  let b := b ++ sprint_bytes h in
  let b := b ++ str "}" in
  Ret b.
