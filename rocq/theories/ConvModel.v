(** Model of typex/convx: the registry (convx.go), the built-in converters
    (converters.go) and their registration (init.go).  Strings and byte slices are lists
    of bytes, runes are 32-bit integers; int and uint have 64 bits. *)
From Verif Require Import Base.
From Coq Require Import Floats.SpecFloat.
Local Open Scope Z.

(** *** The registry (convx.go) *)
(** a static type of the program: its number, and whether it is an interface type; convx.go 8 *)
Record gty := GTy { g_id : nat; g_iface : bool }.
Global Instance gty_dec : EqDecision gty.
Proof. solve_decision. Defined.
(** [reflect.TypeOf( *new(T) )]: nil for an interface type; convx.go 14-17, 23, 27, 33, 37 *)
Definition key (T : gty) : option gty := if g_iface T then None else Some T.
(** a registered converter, with the type [func(T) R] it has; what runs when it is called
    is an [F] *)
Section entries.
Context {F : Type}.
(** convx.go 17: a value in the inner map *)
Record entry_of := Entry { e_from : gty; e_to : gty; e_fn : F }.
(** 8: the outer map and the inner maps; None is a missing (nil) inner map; convx.go 8 *)
Definition registry_of := option gty -> option (option gty -> option entry_of).
(** convx.go 8: the map before init *)
Definition no_converters : registry_of := fun _ => None.
(** convx.go 15, 17, 27: assignment to a map, deletion *)
Definition kset {A} (f : option gty -> A) (k : option gty) (a : A) : option gty -> A := fun j => if decide (j = k) then a else f j.
(** 11-18 *)
Definition register (m : registry_of) (T R : gty) (f : F) : registry_of :=
  let inner := match m (key T) with Some i => i | None => fun _ => None end in
  kset m (key T) (Some (kset inner (key R) (Some (Entry T R f)))).
(** 20-28 *)
Definition unregister (m : registry_of) (T R : gty) : registry_of :=
  match m (key T) with None => m | Some i => kset m (key T) (Some (kset i (key R) None)) end.
(** 30-39 *)
Definition exists_conv (m : registry_of) (T R : gty) : bool :=
  match m (key T) with None => false | Some i => match i (key R) with Some _ => true | None => false end end.
(** 41-55: the converter Into finds; [dyn] is [reflect.TypeOf(value)]: T itself if T is not
    an interface type, and otherwise the dynamic type of the value, nil for a nil interface *)
Definition find_conv (m : registry_of) (T R : gty) (dyn : option gty) : option F :=
  match m dyn with
  | None => None
  | Some i =>
      match i (key R) with
      | None => None
      | Some e => if decide (e_from e = T) then if decide (e_to e = R) then Some (e_fn e) else None else None
      end
  end.
End entries.
Arguments entry_of : clear implicits.
Arguments registry_of : clear implicits.

Section registry.
Context {V : Type}.
(** converters that only compute *)
Notation registry := (registry_of (V -> V)).
(** 41-59; None is the answer (zero, false). *)
Definition into (m : registry) (T R : gty) (dyn : option gty) (v : V) : option V :=
  match find_conv m T R dyn with None => None | Some f => Some (f v) end.
(** 61-67 *)
Definition into_or (m : registry) (T R : gty) (dyn : option gty) (v : V) (or : V) : V :=
  match into m T R dyn v with Some r => r | None => or end.

(** the calls of convx.go 11-67 *)
Inductive rop := ORegister (T R : gty) (f : V -> V) | OUnregister (T R : gty) | OExists (T R : gty) | OInto (T R : gty) (dyn : option gty) (v : V) | OIntoOr (T R : gty) (dyn : option gty) (v or : V).
(** the results of convx.go 11-67 *)
Inductive rret := RetUnit | RetBool (b : bool) | RetInto (r : option V) | RetVal (v : V).
(** convx.go 11-67: one call *)
Definition reg_step (m : registry) (o : rop) : res (registry * rret) :=
  match o with
  | ORegister T R f => Ret (register m T R f, RetUnit)
  | OUnregister T R => Ret (unregister m T R, RetUnit)
  | OExists T R => Ret (m, RetBool (exists_conv m T R))
  | OInto T R d v => Ret (m, RetInto (into m T R d v))
  | OIntoOr T R d v or => Ret (m, RetVal (into_or m T R d v or))
  end.
End registry.
Notation entry V := (entry_of (V -> V)).
Notation registry V := (registry_of (V -> V)).
Arguments rop : clear implicits.
Arguments rret : clear implicits.

(** *** Integer types; converters.go 9-58: the type arguments *)
Record ity := Ity { signed : bool; bits : Z }.
(** the values of an integer type (converters.go 9-58) *)
Definition in_ity (t : ity) (x : Z) : Prop := if signed t then - 2^(bits t - 1) <= x < 2^(bits t - 1) else 0 <= x < 2^(bits t).
(** the values of an integer type (converters.go 9-58) *)
Definition fits (t : ity) (x : Z) : bool := if signed t then (- 2^(bits t - 1) <=? x) && (x <? 2^(bits t - 1)) else (0 <=? x) && (x <? 2^(bits t)).
(** Go's conversion to an integer type; converters.go 10, 27, 32 *)
Definition wrap (t : ity) (x : Z) : Z := if signed t then (x + 2^(bits t - 1)) mod 2^(bits t) - 2^(bits t - 1) else x mod 2^(bits t).
(** converters.go:9-11, between integer types *)
Definition integer_to_integer (R : ity) (i : Z) : Z := wrap R i.

(** *** Text (strconv, base 10, 64 bits) *)
Definition chr (d : Z) : Z := 48 + d.
(** strconv.FormatUint: decimal digits, most significant first; converters.go 18 *)
Fixpoint digits (fuel : nat) (n : Z) (acc : list Z) : list Z :=
  match fuel with
  | O => acc
  | S fuel => if n <? 10 then chr n :: acc else digits fuel (n / 10) (chr (n mod 10) :: acc)
  end.
(** converters.go 18: strconv.FormatUint *)
Definition format_uint (n : Z) : list Z := digits 20 n [].
(** strconv.FormatInt; converters.go 14 *)
Definition format_int (n : Z) : list Z := if n <? 0 then 45 :: format_uint (u64 (- n)) else format_uint n.
(** converters.go:13-19 *)
Definition int_to_string (i : Z) : list Z := format_int (i64 i).
(** converters.go 17-19 *)
Definition uint_to_string (i : Z) : list Z := format_uint (u64 i).

(** the errors of strconv, converters.go 26, 31, 36, 45 *)
Inductive perr := ENone | ESyntax | ERange.
(** strconv.ParseUint: the loop over the bytes; converters.go 31 *)
Definition max_u64 : Z := 2^64 - 1.
(** converters.go 31: strconv.ParseUint *)
Definition cutoff_u64 : Z := max_u64 / 10 + 1.
(** the value of a byte as a digit: letters count from 10 *)
Definition digit_val (c : Z) : option Z :=
  if (48 <=? c) && (c <=? 57) then Some (c - 48)
  else if (97 <=? c) && (c <=? 122) then Some (c - 97 + 10)
  else if (65 <=? c) && (c <=? 90) then Some (c - 65 + 10)
  else None.
(** converters.go 31: strconv.ParseUint *)
Fixpoint parse_loop (s : list Z) (n : Z) : Z * perr :=
  match s with
  | [] => (n, ENone)
  | c :: s =>
      match digit_val c with
      | None => (0, ESyntax)
      | Some d =>
          if 10 <=? d then (0, ESyntax) else
          if cutoff_u64 <=? n then (max_u64, ERange) else
          let n := u64 (n * 10) in
          let n1 := u64 (n + d) in
          if (n1 <? n) || (max_u64 <? n1) then (max_u64, ERange) else
          parse_loop s n1
      end
  end.
(** converters.go 31: strconv.ParseUint *)
Definition parse_uint (s : list Z) : Z * perr := match s with [] => (0, ESyntax) | _ => parse_loop s 0 end.
(** strconv.ParseInt; converters.go 26 *)
Definition parse_int (s : list Z) : Z * perr :=
  match s with
  | [] => (0, ESyntax)
  | c :: s' =>
      let neg := c =? 45 in
      let rest := if (c =? 43) || (c =? 45) then s' else s in
      let '(un, err) := parse_uint rest in
      match err with
      | ESyntax => (0, ESyntax)
      | _ =>
          if negb neg && (2^63 <=? un) then (2^63 - 1, ERange)
          else if neg && (2^63 <? un) then (- 2^63, ERange)
          else let n := i64 un in (if neg then i64 (- n) else n, err)
      end
  end.
(** converters.go:25-33: the error is thrown away *)
Definition string_to_integer (T : ity) (s : list Z) : Z := wrap T (parse_int s).1.
(** converters.go 30-33 *)
Definition string_to_uinteger (T : ity) (s : list Z) : Z := wrap T (parse_uint s).1.

(** *** Bool *)
(** the bytes of "true", "false", and what ParseBool takes for true and false;
    converters.go 41, 45 *)
Definition str_true : list Z := [116; 114; 117; 101].
(** converters.go 41, 45 *)
Definition str_false : list Z := [102; 97; 108; 115; 101].
(** converters.go 45: strconv.ParseBool *)
Definition true_strings : list (list Z) := [[49]; [116]; [84]; [116; 114; 117; 101]; [84; 82; 85; 69]; [84; 114; 117; 101]].
(** converters.go 45: strconv.ParseBool *)
Definition false_strings : list (list Z) := [[48]; [102]; [70]; [102; 97; 108; 115; 101]; [70; 65; 76; 83; 69]; [70; 97; 108; 115; 101]].
(** converters.go 41: strconv.FormatBool *)
Definition format_bool (b : bool) : list Z := if b then str_true else str_false.
(** converters.go 45: strconv.ParseBool *)
Definition parse_bool (s : list Z) : bool * perr :=
  if bool_decide (s ∈ true_strings) then (true, ENone) else if bool_decide (s ∈ false_strings) then (false, ENone) else (false, ESyntax).
(** 40-58 *)
Definition bool_to_string (b : bool) : list Z := format_bool b.
(** converters.go 44-47 *)
Definition string_to_bool (s : list Z) : bool := (parse_bool s).1.
(** converters.go 49-54 *)
Definition bool_to_integer (T : ity) (b : bool) : Z := if b then wrap T 1 else wrap T 0.
(** converters.go 56-58 *)
Definition int_to_bool (i : Z) : bool := negb (i =? 0).

(** *** UTF-8: Go's conversions between strings and rune slices; converters.go 92, 96 *)
Definition rune_error : Z := 65533.
(** utf8.MaxRune, converters.go 92, 96 *)
Definition max_rune : Z := 1114111.
(** utf8.surrogateMin to surrogateMax, converters.go 92, 96 *)
Definition surrogate (r : Z) : bool := (55296 <=? r) && (r <=? 57343).
(** [string(r)] for one rune; a rune is a signed 32-bit number and is looked at as
    unsigned.  [|] of disjoint bits is written as +, shifts and masks as / and mod. *)
Definition encode_rune (r : Z) : list Z :=
  let i := r mod 2^32 in
  if i <=? 127 then [i]
  else if i <=? 2047 then [192 + i / 64; 128 + i mod 64]
  else
    let i := if (max_rune <? i) || surrogate i then rune_error else i in
    if i <=? 65535 then [224 + i / 4096; 128 + i / 64 mod 64; 128 + i mod 64]
    else [240 + i / 262144; 128 + i / 4096 mod 64; 128 + i / 64 mod 64; 128 + i mod 64].
(** 95-97 *)
Definition runes_to_string (rs : list Z) : list Z := flat_map encode_rune rs.
(** one rune from the front, and the number of bytes it takes; converters.go 92 *)
Definition cont (c : Z) : bool := (128 <=? c) && (c <=? 191).
(** utf8.DecodeRune, converters.go 92 *)
Definition decode_rune (s : list Z) : Z * nat :=
  match s with
  | [] => (rune_error, 1%nat)
  | a :: s =>
      if a <? 128 then (a, 1%nat)
      else if (192 <=? a) && (a <? 224) then
        match s with
        | b :: _ =>
            let r := a mod 32 * 64 + b mod 64 in
            if cont b && (127 <? r) then (r, 2%nat) else (rune_error, 1%nat)
        | _ => (rune_error, 1%nat)
        end
      else if (224 <=? a) && (a <? 240) then
        match s with
        | b :: c :: _ =>
            let r := a mod 16 * 4096 + b mod 64 * 64 + c mod 64 in
            if cont b && cont c && (2047 <? r) && negb (surrogate r) then (r, 3%nat) else (rune_error, 1%nat)
        | _ => (rune_error, 1%nat)
        end
      else if (240 <=? a) && (a <? 248) then
        match s with
        | b :: c :: d :: _ =>
            let r := a mod 8 * 262144 + b mod 64 * 4096 + c mod 64 * 64 + d mod 64 in
            if cont b && cont c && cont d && (65535 <? r) && (r <=? max_rune) then (r, 4%nat) else (rune_error, 1%nat)
        | _ => (rune_error, 1%nat)
        end
      else (rune_error, 1%nat)
  end.
(** the conversion of converters.go 92 *)
Fixpoint decode (fuel : nat) (s : list Z) : list Z :=
  match fuel with
  | O => []
  | S fuel => match s with [] => [] | _ => let '(r, n) := decode_rune s in r :: decode fuel (drop n s) end
  end.
(** 91-93 *)
Definition string_to_runes (s : list Z) : list Z := decode (length s) s.
(** 79-85: the bytes are copied *)
Definition string_to_bytes (s : list Z) : list Z := s.
(** converters.go 83-85 *)
Definition bytes_to_string (b : list Z) : list Z := b.

(** *** Floats: IEEE 754, as in the standard library's SpecFloat *)
Definition prec64 : Z := 53. Definition emax64 : Z := 1024.
(** converters.go 10, 37, 62: float32 *)
Definition prec32 : Z := 24. Definition emax32 : Z := 128.
(** an integer to the nearest float; converters.go 10 *)
Definition int_to_float (prec emax : Z) (x : Z) : spec_float := binary_normalize prec emax x 0 false.
(** a float to another format; converters.go 10, 22, 37 *)
Definition float_to_float (prec emax : Z) (f : spec_float) : spec_float :=
  match f with
  | S754_finite s m e => binary_round prec emax s m e
  | _ => f
  end.
(** a float to an integer: truncated.  The result is up to the implementation ([oob]) if
    the truncated value does not fit. converters.go 10 *)
Definition float_trunc (f : spec_float) : option Z :=
  match f with
  | S754_zero _ => Some 0
  | S754_finite s m e =>
      let a := if 0 <=? e then Zpos m * 2^e else Zpos m / 2^(- e) in
      Some (if s then - a else a)
  | _ => None
  end.
(** converters.go 10 *)
Definition float_to_int (oob : ity -> spec_float -> Z) (T : ity) (f : spec_float) : Z :=
  match float_trunc f with
  | Some x => if fits T x then x else oob T f
  | None => oob T f
  end.

(** *** Registration (init.go) *)
Inductive nty := I8 | I16 | I32 | I64 | IInt | U8 | U16 | U32 | U64 | UInt | F32 | F64.
(** the types of init.go 3-206 *)
Inductive bty := BNum (t : nty) | BStr | BBool | BBytes | BRunes.
Global Instance nty_dec : EqDecision nty.
Proof. solve_decision. Defined.
Global Instance bty_dec : EqDecision bty.
Proof. solve_decision. Defined.
(** the values of the types of init.go 3-206 *)
Inductive bval := VInt (z : Z) | VFloat (f : spec_float) | VStr (s : list Z) | VBool (b : bool) | VBytes (b : list Z) | VRunes (r : list Z).
(** None for floats; init.go 3-206 *)
Definition nty_ity (t : nty) : option ity :=
  match t with
  | I8 => Some (Ity true 8) | I16 => Some (Ity true 16) | I32 => Some (Ity true 32) | I64 => Some (Ity true 64) | IInt => Some (Ity true 64)
  | U8 => Some (Ity false 8) | U16 => Some (Ity false 16) | U32 => Some (Ity false 32) | U64 => Some (Ity false 64) | UInt => Some (Ity false 64)
  | F32 | F64 => None
  end.
(** init.go 3-206: the float types *)
Definition nty_prec (t : nty) : Z * Z := match t with F32 => (prec32, emax32) | _ => (prec64, emax64) end.
(** init.go 3-206: the number types *)
Definition all_nty : list nty := [I8; I16; I32; I64; IInt; U8; U16; U32; U64; UInt; F32; F64].
(** init.go 3-206: the types *)
Definition all_bty : list bty := map BNum all_nty ++ [BStr; BBool; BBytes; BRunes].
(** the built-in types as types of the program; init.go 3-206 *)
Definition bty_id (t : bty) : nat :=
  match t with
  | BNum I8 => 0 | BNum I16 => 1 | BNum I32 => 2 | BNum I64 => 3 | BNum IInt => 4 | BNum U8 => 5 | BNum U16 => 6 | BNum U32 => 7 | BNum U64 => 8 | BNum UInt => 9
  | BNum F32 => 10 | BNum F64 => 11 | BStr => 12 | BBool => 13 | BBytes => 14 | BRunes => 15
  end%nat.
(** init.go 3-206: a built-in type as a type of the program *)
Definition bgty (t : bty) : gty := GTy (bty_id t) false.

Section converters.
(** strconv.FormatFloat(_, 'f', -1, 64), strconv.ParseFloat(_, 64) and conversions out of range are parameters here; the first two are written out in StrconvModel *)
Context (format_float : spec_float -> list Z) (parse_float : list Z -> spec_float) (oob : ity -> spec_float -> Z).
(** converters.go:9-11, for all the number types *)
Definition conv_num (T R : nty) (v : bval) : bval :=
  match v, nty_ity R with
  | VInt i, Some r => VInt (integer_to_integer r i)
  | VInt i, None => VFloat (int_to_float (nty_prec R).1 (nty_prec R).2 i)
  | VFloat f, Some r => VInt (float_to_int oob r f)
  | VFloat f, None => VFloat (float_to_float (nty_prec R).1 (nty_prec R).2 f)
  | _, _ => v
  end.
(** 25-38 *)
Definition conv_from_string (R : nty) (v : bval) : bval :=
  match v, nty_ity R with
  | VStr s, Some r => VInt (if signed r then string_to_integer r s else string_to_uinteger r s)
  | VStr s, None => VFloat (float_to_float (nty_prec R).1 (nty_prec R).2 (parse_float s))
  | _, _ => v
  end.
(** 13-23 *)
Definition conv_to_string (T : nty) (v : bval) : bval :=
  match v, nty_ity T with
  | VInt i, Some t => VStr (if signed t then int_to_string i else uint_to_string i)
  | VFloat f, None => VStr (format_float (float_to_float prec64 emax64 f))
  | _, _ => v
  end.
(** 49-54, 60-65 *)
Definition conv_from_bool (R : nty) (v : bval) : bval :=
  match v, nty_ity R with
  | VBool b, Some r => VInt (bool_to_integer r b)
  | VBool b, None => VFloat (int_to_float (nty_prec R).1 (nty_prec R).2 (if b then 1 else 0))
  | _, _ => v
  end.
(** 56-58, 67-69; NaN is not zero *)
Definition float_to_bool (f : spec_float) : bool := match f with S754_zero _ => false | _ => true end.
(** converters.go 56-58, 67-69 *)
Definition conv_to_bool (T : nty) (v : bval) : bval :=
  match v with VInt i => VBool (int_to_bool i) | VFloat f => VBool (float_to_bool f) | _ => v end.
(** converters.go 71-77, 87-89, 99-101 *)
Definition same (v : bval) : bval := v.
(** the calls of Register, in order; init.go 3-206 *)
Definition init_table : list (bty * bty * (bval -> bval)) :=
  (* 4-147 *) flat_map (fun T => map (fun R => (BNum T, BNum R, conv_num T R)) all_nty) all_nty ++
  (* 148-159 *) map (fun R => (BStr, BNum R, conv_from_string R)) all_nty ++
  (* 160-171 *) map (fun T => (BNum T, BStr, conv_to_string T)) all_nty ++
  (* 172-183 *) map (fun R => (BBool, BNum R, conv_from_bool R)) all_nty ++
  (* 184 *) [(BBool, BStr, fun v => match v with VBool b => VStr (bool_to_string b) | _ => v end)] ++
  (* 185-196 *) map (fun T => (BNum T, BBool, conv_to_bool T)) all_nty ++
  (* 197-205 *)
  [(BStr, BBool, fun v => match v with VStr s => VBool (string_to_bool s) | _ => v end);
   (BStr, BStr, same); (BBool, BBool, same);
   (BStr, BBytes, fun v => match v with VStr s => VBytes (string_to_bytes s) | _ => v end);
   (BBytes, BStr, fun v => match v with VBytes b => VStr (bytes_to_string b) | _ => v end);
   (BBytes, BBytes, same);
   (BStr, BRunes, fun v => match v with VStr s => VRunes (string_to_runes s) | _ => v end);
   (BRunes, BStr, fun v => match v with VRunes r => VStr (runes_to_string r) | _ => v end);
   (BRunes, BRunes, same)].
(** init.go 3-206: the registry after init *)
Definition builtin : registry bval := foldl (fun m '(T, R, f) => register m (bgty T) (bgty R) f) no_converters init_table.
(** a call of Into with built-in types; convx.go 41-59 *)
Definition convert (T R : bty) (v : bval) : option bval := into builtin (bgty T) (bgty R) (Some (bgty T)) v.
End converters.
