(** strconv.ParseFloat(s, 64) and strconv.FormatFloat(f, 'f', -1, 64), which convx calls
    (converters.go:21-23, 35-38): Go 1.19, strconv/atof.go and strconv/ftoa.go.

    Simplified: atof.go keeps 19 (hexadecimal: 16) digits of the number in a uint64 and goes
    through one of three algorithms (exact, Eisel-Lemire, decimal.floatBits); here all the
    digits are kept and the fraction they stand for is rounded once, which is what the three
    are for.  ftoa.go finds the shortest digits with Ryu; here they are found as by
    roundShortest, the algorithm that Ryu replaces.  The error results are dropped, as convx
    does. *)
From Verif Require Import Base ConvModel.
From Coq Require Import Floats.SpecFloat ZArith.
Local Open Scope Z.

(** *** Rounding a fraction: [N / D], to the nearest, ties to even (decimal.go: floatBits;
    atof.go: atofHex).  [k] more bits of the quotient than a float64 can tell apart, and
    one bit to say that there is a remainder. *)
Definition round_ratio (s : bool) (N D : Z) : spec_float :=
  if N =? 0 then S754_zero s else
  let k := 1100 + Z.log2 D in
  let q := N * 2^k / D in
  let m := 2 * q + (if N * 2^k mod D =? 0 then 0 else 1) in
  binary_round prec64 emax64 s (Z.to_pos m) (- (k + 1)).
(** [M * base^e]; converters.go 36: strconv.ParseFloat, atof64 *)
Definition round_exp (s : bool) (base M e : Z) : spec_float := round_ratio s (M * base^(Z.max e 0)) (base^(Z.max (- e) 0)).

(** *** atoi.go: lower, underscoreOK *)
Definition lower (c : Z) : Z := Z.lor c 32.
(** converters.go 36: strconv.ParseFloat, readFloat *)
Definition dec_digit (c : Z) : bool := (48 <=? c) && (c <=? 57).
(** converters.go 36: strconv.ParseFloat, readFloat *)
Definition hex_letter (c : Z) : bool := (97 <=? lower c) && (lower c <=? 102).
(** converters.go 36: strconv.ParseFloat, underscoreOK *)
Inductive saw := SBegin | SDigit | SUnder | SOther.
(** converters.go 36: strconv.ParseFloat, underscoreOK *)
Fixpoint underscore_loop (hex : bool) (w : saw) (s : list Z) : bool :=
  match s with
  | [] => match w with SUnder => false | _ => true end
  | c :: r =>
      if dec_digit c || hex && hex_letter c then underscore_loop hex SDigit r
      else if c =? 95 then match w with SDigit => underscore_loop hex SUnder r | _ => false end
      else match w with SUnder => false | _ => underscore_loop hex SOther r end
  end.
(** converters.go 36: strconv.ParseFloat, underscoreOK *)
Definition drop_sign (s : list Z) : list Z := match s with c :: r => if (c =? 45) || (c =? 43) then r else s | [] => s end.
(** converters.go 36: strconv.ParseFloat, underscoreOK *)
Definition underscore_ok (s : list Z) : bool :=
  match drop_sign s with
  | z :: c :: r => if (z =? 48) && ((lower c =? 98) || (lower c =? 111) || (lower c =? 120)) then underscore_loop (lower c =? 120) SDigit r else underscore_loop false SBegin (z :: c :: r)
  | t => underscore_loop false SBegin t
  end.

(** *** atof.go: special: inf, infinity and nan, in capitals or not *)
Definition fold_case (c : Z) : Z := if (65 <=? c) && (c <=? 90) then c + 32 else c.
(** converters.go 36: strconv.ParseFloat, commonPrefixLenIgnoreCase *)
Fixpoint common_prefix (s t : list Z) : nat :=
  match s, t with c :: s', d :: t' => if fold_case c =? d then S (common_prefix s' t') else O | _, _ => O end.
(** converters.go 36: strconv.ParseFloat, special *)
Definition str_infinity : list Z := [105; 110; 102; 105; 110; 105; 116; 121].
(** converters.go 36: strconv.ParseFloat, special *)
Definition str_nan : list Z := [110; 97; 110].
(** the value and the number of bytes it takes; converters.go 36: strconv.ParseFloat, special *)
Definition special_inf (neg : bool) (nsign : nat) (s : list Z) : option (spec_float * nat) :=
  let n := common_prefix s str_infinity in
  let n := if (3 <? n)%nat && (n <? 8)%nat then 3%nat else n in
  if (n =? 3)%nat || (n =? 8)%nat then Some (S754_infinity neg, (nsign + n)%nat) else None.
(** converters.go 36: strconv.ParseFloat, special *)
Definition special (s : list Z) : option (spec_float * nat) :=
  match s with
  | [] => None
  | c :: r =>
      if (c =? 43) || (c =? 45) then special_inf (c =? 45) 1 r
      else if (c =? 105) || (c =? 73) then special_inf false 0 s
      else if (c =? 110) || (c =? 78) then if (common_prefix s str_nan =? 3)%nat then Some (S754_nan, 3%nat) else None
      else None
  end.

(** *** atof.go: readFloat *)
Record mant := Mant { mt : Z; nd : Z; dp : Z; sawdot : bool; sawdigits : bool; under : bool }.
(** the digits and the point: what was read and what is left;
    converters.go 36: strconv.ParseFloat, readFloat *)
Fixpoint scan (hex : bool) (s : list Z) (a : mant) : mant * list Z :=
  match s with
  | [] => (a, [])
  | c :: r =>
      if c =? 95 then scan hex r (Mant (mt a) (nd a) (dp a) (sawdot a) (sawdigits a) true)
      else if c =? 46 then
        if sawdot a then (a, s) else scan hex r (Mant (mt a) (nd a) (nd a) true (sawdigits a) (under a))
      else if dec_digit c then
        if (c =? 48) && (nd a =? 0) then scan hex r (Mant (mt a) (nd a) (dp a - 1) (sawdot a) true (under a))
        else scan hex r (Mant (mt a * (if hex then 16 else 10) + (c - 48)) (nd a + 1) (dp a) (sawdot a) true (under a))
      else if hex && hex_letter c then scan hex r (Mant (mt a * 16 + (lower c - 97 + 10)) (nd a + 1) (dp a) (sawdot a) true (under a))
      else (a, s)
  end.
(** the digits of the exponent, which stops growing at 10000; the flag says that there was
    an underscore *)
Fixpoint scan_exp (s : list Z) (e : Z) (u : bool) : Z * bool * list Z :=
  match s with
  | [] => (e, u, [])
  | c :: r =>
      if c =? 95 then scan_exp r e true
      else if dec_digit c then scan_exp r (if e <? 10000 then e * 10 + (c - 48) else e) u
      else (e, u, s)
  end.
(** an optional sign; '0x' with something after it;
    converters.go 36: strconv.ParseFloat, readFloat *)
Definition split_sign (s : list Z) : bool * list Z :=
  match s with c :: t => if c =? 43 then (false, t) else if c =? 45 then (true, t) else (false, s) | [] => (false, s) end.
(** converters.go 36: strconv.ParseFloat, readFloat *)
Definition split_prefix (s : list Z) : bool * list Z :=
  match s with z :: c :: x :: r => if (z =? 48) && (lower c =? 120) then (true, x :: r) else (false, s) | _ => (false, s) end.
(** the exponent after 'e' or 'p': None if there is none;
    converters.go 36: strconv.ParseFloat, readFloat *)
Definition read_exp (s : list Z) (u : bool) : option (Z * bool * list Z) :=
  let '(neg, t) := split_sign s in
  match t with
  | c :: _ => if dec_digit c then let '(e, u', r) := scan_exp t 0 u in Some (if neg then - e else e, u', r) else None
  | [] => None
  end.
(** converters.go 36: strconv.ParseFloat, atof64 *)
Record number := Number { n_neg : bool; n_hex : bool; n_mant : Z; n_exp : Z; n_rest : list Z }.
(** converters.go 36: strconv.ParseFloat, readFloat *)
Definition read_float (s : list Z) : option number :=
  let '(neg, t) := split_sign s in
  let '(hex, t) := split_prefix t in
  let '(a, r) := scan hex t (Mant 0 0 0 false false false) in
  if negb (sawdigits a) then None else
  let dp0 := if sawdot a then dp a else nd a in
  let w := if hex then 4 else 1 in
  let fin (e : Z) (u : bool) (r : list Z) :=
    if u && negb (underscore_ok (take (length s - length r) s)) then None else Some (Number neg hex (mt a) (dp0 * w + e - nd a * w) r) in
  match r with
  | c :: r' =>
      if lower c =? (if hex then 112 else 101) then
        match read_exp r' (under a) with Some (e, u, r'') => fin e u r'' | None => None end
      else if hex then None else fin 0 (under a) r
  | [] => if hex then None else fin 0 (under a) r
  end.
(** atof.go: ParseFloat, atof64 *)
Definition parse_float (s : list Z) : spec_float :=
  match special s with
  | Some (f, n) => if (n =? length s)%nat then f else S754_zero false
  | None =>
      match read_float s with
      | Some x => match n_rest x with [] => round_exp (n_neg x) (if n_hex x then 2 else 10) (n_mant x) (n_exp x) | _ => S754_zero false end
      | None => S754_zero false
      end
  end.

(** *** ftoa.go: roundShortest.  The float is [m * 2^e]; its digits are those of [m * u],
    to be followed by a power of ten.  Of its [t] last digits none is needed if the number
    without them, or the next one, is still read as the same float. *)
Definition unit10 (e : Z) : Z := if 0 <=? e then 2^e else 5^(- e).
(** four times the bounds of the numbers that are read as the float, and if the bounds
    themselves are; converters.go 22: strconv.FormatFloat, roundShortest *)
Definition lower4 (m e : Z) : Z := 4 * (m * unit10 e) - (if (m =? 2^52) && negb (e =? -1074) then 1 else 2) * unit10 e.
(** converters.go 22: strconv.FormatFloat, roundShortest *)
Definition upper4 (m e : Z) : Z := 4 * (m * unit10 e) + 2 * unit10 e.
(** converters.go 22: strconv.FormatFloat, roundShortest *)
Definition inside (m e c : Z) : bool :=
  if Z.even m then (lower4 m e <=? 4 * c) && (4 * c <=? upper4 m e) else (lower4 m e <? 4 * c) && (4 * c <? upper4 m e).
(** decimal.go: shouldRoundUp *)
Definition round_up (n p : Z) : bool := let r := n mod p in if 2 * r =? p then Z.odd (n / p) else p <? 2 * r.
(** the digits and how many were dropped; converters.go 22: strconv.FormatFloat, roundShortest *)
Fixpoint shortest (m e : Z) (t : nat) : Z * nat :=
  let n := m * unit10 e in let p := 10^Z.of_nat t in
  let down := inside m e (n / p * p) in let up := inside m e ((n / p + 1) * p) in
  if down && up then (if round_up n p then n / p + 1 else n / p, t)
  else if down then (n / p, t) else if up then (n / p + 1, t)
  else match t with O => (n, O) | S t' => shortest m e t' end.
(** decimal digits; converters.go 22: strconv.FormatFloat, fmtF *)
Definition dec_digits (n : Z) : list Z := digits (S (Z.to_nat (Z.log2 n))) n [].
(** decimal.go: trim *)
Fixpoint drop_zeros (r : list Z) : list Z := match r with c :: r' => if c =? 48 then drop_zeros r' else r | [] => [] end.
(** converters.go 22: strconv.FormatFloat, fmtF *)
Definition trim (ds : list Z) : list Z := rev (drop_zeros (rev ds)).
(** ftoa.go: fmtF, with as many digits after the point as there are *)
Definition fmt_f (neg : bool) (ds : list Z) (dp : Z) : list Z :=
  let nd := Z.of_nat (length ds) in
  let prec := Z.max (nd - dp) 0 in
  (if neg then [45] else []) ++
  (if 0 <? dp then take (Z.to_nat (Z.min nd dp)) ds ++ repeat 48 (Z.to_nat (dp - Z.min nd dp)) else [48]) ++
  (if 0 <? prec then 46 :: map (fun i => let j := dp + Z.of_nat i in if 0 <=? j then nth (Z.to_nat j) ds 48 else 48) (seq 0 (Z.to_nat prec)) else []).
(** converters.go 22: strconv.FormatFloat, genericFtoa *)
Definition str_NaN : list Z := [78; 97; 78].
(** converters.go 22: strconv.FormatFloat, genericFtoa *)
Definition str_Inf : list Z := [73; 110; 102].
(** converters.go 22: strconv.FormatFloat, genericFtoa and fmtF *)
Definition format_float (f : spec_float) : list Z :=
  match f with
  | S754_nan => str_NaN
  | S754_infinity s => (if s then 45 else 43) :: str_Inf
  | S754_zero s => fmt_f s [] 0
  | S754_finite s m e =>
      let l := length (dec_digits (Zpos m * unit10 e)) in
      let '(c, t) := shortest (Zpos m) e (pred l) in
      let ds := dec_digits c in
      fmt_f s (trim ds) (Z.of_nat (length ds) + Z.of_nat t + Z.min e 0)
  end.

Example parse_tests :
  parse_float [49; 46; 53] = S754_finite false (3 * 2^51) (-52) /\
  parse_float [45; 48; 120; 49; 46; 56; 112; 51] = S754_finite true (3 * 2^51) (-49) /\
  parse_float [49; 101; 50; 51] = S754_finite false 5960464477539062 24 /\
  parse_float [52; 46; 57; 101; 45; 51; 50; 52] = S754_finite false 1 (-1074) /\
  parse_float [49; 95; 48; 48; 48; 46; 53] = parse_float [49; 48; 48; 48; 46; 53] /\
  parse_float [49; 101; 51; 48; 57] = S754_infinity false /\
  parse_float [49; 101; 52; 48; 48] = S754_infinity false /\
  parse_float [45; 105; 78; 102] = S754_infinity true /\ parse_float [105; 110; 102; 105] = S754_zero false /\
  parse_float [110; 65; 110] = S754_nan /\ parse_float [45; 48] = S754_zero true /\ parse_float [46] = S754_zero false /\ parse_float [] = S754_zero false.
Proof. repeat split; vm_compute; reflexivity. Qed.
Example format_tests :
  format_float (parse_float [48; 46; 49]) = [48; 46; 49] /\
  format_float (parse_float [49; 101; 50; 51]) = 49 :: repeat 48 23 /\
  format_float (parse_float [46; 48; 48; 48; 48; 49]) = [48; 46; 48; 48; 48; 48; 49] /\
  format_float (S754_finite false 1 (-1074)) = 48 :: 46 :: repeat 48 323 ++ [53] /\
  format_float (S754_finite false (2^53 - 1) 971) = [49;55;57;55;54;57;51;49;51;52;56;54;50;51;49;53;55] ++ repeat 48 292 /\
  format_float (S754_finite true (3 * 2^51) (-52)) = [45; 49; 46; 53] /\ format_float (S754_zero true) = [45; 48] /\
  format_float (S754_infinity false) = [43; 73; 110; 102] /\ format_float (int_to_float 53 1024 100) = [49; 48; 48].
Proof. repeat split; vm_compute; reflexivity. Qed.
