(** Model of test/main.go: a program that uses convx with the converters of init.go and one
    of its own.  [fmt.Println] and [hex.EncodeToString] follow their documentation for the
    kinds of values this program prints. *)
From Coq Require Import Floats.SpecFloat.
From Verif Require Import Base ConvModel.
Local Open Scope Z.

(** test/main.go:11: a type of the program that is not one of init.go *)
Definition HexString : gty := GTy 16 false.
(** encoding/hex: EncodeToString; called at test/main.go 19 *)
Definition hex_digit (n : Z) : Z := if n <? 10 then 48 + n else 87 + n.
(** called at test/main.go 19 *)
Definition hex_encode (bs : list Z) : list Z := flat_map (fun b => [hex_digit (b / 16); hex_digit (b mod 16)]) bs.
(** fmt: the text of one operand; test/main.go 14-16, 24, 27 *)
Definition operand (v : bval) : list Z :=
  match v with VStr s => s | VInt z => format_int z | VBool b => bool_to_string b | VFloat _ | VBytes _ | VRunes _ => [] end.
(** fmt.Println: a space between operands, and a new line at the end; test/main.go 14-16, 24, 27 *)
Fixpoint println (vs : list bval) : list Z :=
  match vs with [] => [10] | [v] => operand v ++ [10] | v :: vs' => operand v ++ 32 :: println vs' end.

Section main.
Context (ff : spec_float -> list Z) (pf : list Z -> spec_float) (oob : ity -> spec_float -> Z).
(** the zero value of bool that Into answers when there is no converter (convx.go:41-59) *)
Definition pair_bool (r : option bval) : list bval := match r with Some v => [v; VBool true] | None => [VBool false; VBool false] end.
(** test/main.go:13-28; [buf] is what rand.Read put into buf *)
Definition demo (buf : list Z) : list Z :=
  let m := builtin ff pf oob in
  let int64 := bgty (BNum I64) in let int32 := bgty (BNum I32) in let string := bgty BStr in let bool := bgty BBool in let bytes := bgty BBytes in
  (* 14 *) let out1 := println [into_or m int64 string (Some int64) (VInt 123456) (VStr [])] in
  (* 15 *) let out2 := println [into_or m bool string (Some bool) (VBool true) (VStr [])] in
  (* 16: the string 5678 *) let out3 := println [into_or m string int32 (Some string) (VStr [53; 54; 55; 56]) (VInt 0)] in
  (* 18-20 *) let m := register m bytes HexString (fun v => match v with VBytes b => VStr (hex_encode b) | _ => v end) in
  (* 22-24 *) let out4 := println [into_or m bytes HexString (Some bytes) (VBytes buf) (VStr [])] in
  (* 26-27 *) let out5 := println (pair_bool (into m int64 bool (Some int64) (VInt 1))) in
  out1 ++ out2 ++ out3 ++ out4 ++ out5.
End main.
