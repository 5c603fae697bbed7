(** Model of timex/timex.go, timex/truncatex/truncatex.go and timex/diffx/diffx.go
    over the arithmetic of Go's time package (src/time/time.go).  A time.Time
    without monotonic reading in UTC is [ext], the seconds since January 1 of year
    1 as an int64, and [nsec] in [0, 10^9). *)
From Verif Require Import Base.
Local Open Scope Z.

(** time.Time, as made by timex.go 6, 10 *)
Record gotime := GT { g_ext : Z; g_nsec : Z }.
(** time.go, unixToInternal, under timex.go 10 *)
Definition unix_to_internal : Z := 62135596800.
(** time.Second, truncatex.go 41 *)
Definition second : Z := 1000000000.

(** timex.go 9-11: Custom(sec, 0) = time.Unix(sec, 0).UTC() *)
Definition unix (sec : Z) : gotime := GT (i64 (sec + unix_to_internal)) 0.
(** Time.Unix; truncatex.go 11, 17, 41 *)
Definition to_unix (t : gotime) : Z := i64 (g_ext t - unix_to_internal).

(** time.div: the remainder of the time, in nanoseconds since year 1, by d > 0 (the
    quotient's parity, which only Round uses, is left out).
    The general case: the number of nanoseconds as two 64-bit words, high and low *)
Definition nanos128 (sec nsec : Z) : Z * Z :=
  let tmp := u64 (Z.shiftr sec 32 * second) in
  let u1 := Z.shiftr tmp 32 in
  let u0 := u64 (Z.shiftl tmp 32) in
  let tmp := u64 (Z.land sec (2^32 - 1) * second) in
  let u0x := u0 in let u0 := u64 (u0 + tmp) in
  let u1 := if u0 <? u0x then u64 (u1 + 1) else u1 in
  let u0x := u0 in let u0 := u64 (u0 + nsec) in
  let u1 := if u0 <? u0x then u64 (u1 + 1) else u1 in
  (u1, u0).
(** for d1>>63 != 1 { d1 <<= 1 }: at most 63 times *)
Fixpoint div_align (fuel : nat) (d1 : Z) : Z :=
  match fuel with O => d1 | S fuel => if Z.shiftr d1 63 =? 1 then d1 else div_align fuel (u64 (Z.shiftl d1 1)) end.
(** the loop that subtracts d1 d0 and halves it, at most 128 times *)
Fixpoint div_loop (fuel : nat) (u1 u0 d1 d0 d : Z) : Z :=
  match fuel with
  | O => u0
  | S fuel =>
      let '(u1, u0) :=
        if (d1 <? u1) || ((u1 =? d1) && (d0 <=? u0)) then
          let u0x := u0 in let u0 := u64 (u0 - d0) in
          let u1 := if u0x <? u0 then u64 (u1 - 1) else u1 in
          (u64 (u1 - d1), u0)
        else (u1, u0) in
      if (d1 =? 0) && (d0 =? d) then u0 else
      div_loop fuel u1 u0 (Z.shiftr d1 1) (Z.lor (Z.shiftr d0 1) (u64 (Z.shiftl (Z.land d1 1) 63))) d
  end.
(** time.go, div, the general case, under truncatex.go 41 *)
Definition long_rem (sec nsec d : Z) : Z :=
  let '(u1, u0) := nanos128 sec nsec in
  div_loop 128 u1 u0 (div_align 63 d) 0 d.
(** time.go, div, under truncatex.go 41 *)
Definition go_div (t : gotime) (d : Z) : Z :=
  let neg := g_ext t <? 0 in
  let '(sec, nsec) :=
    if neg then
      let nsec := - g_nsec t in
      let sec := i64 (- g_ext t) in
      if nsec <? 0 then (i64 (sec - 1), nsec + second) else (sec, nsec)
    else (g_ext t, g_nsec t) in
  let r :=
    if (d <? second) && (Z.rem second (d + d) =? 0) then Z.rem nsec d
    else if Z.rem d second =? 0 then
      i64 (i64 (Z.rem sec (Z.quot d second) * second) + nsec)
    else i64 (long_rem (u64 sec) nsec d) in
  if neg && negb (r =? 0) then i64 (d - r) else r.
(** Time.addSec, saturating; truncatex.go 41 *)
Definition add_sec (ext d : Z) : Z :=
  let sum := i64 (ext + d) in
  if Bool.eqb (ext <? sum) (0 <? d) then sum else if 0 <? d then 2^63 - 1 else - (2^63 - 1).
(** Time.Add; truncatex.go 41 *)
Definition go_add (t : gotime) (d : Z) : gotime :=
  let dsec := Z.quot d second in
  let nsec := g_nsec t + Z.rem d second in
  let '(dsec, nsec) :=
    if second <=? nsec then (dsec + 1, nsec - second)
    else if nsec <? 0 then (dsec - 1, nsec + second) else (dsec, nsec) in
  GT (add_sec (g_ext t) dsec) nsec.
(** Time.Truncate; truncatex.go 41 *)
Definition go_truncate (t : gotime) (d : Z) : gotime :=
  if d <=? 0 then t else go_add t (i64 (- go_div t d)).

(** truncatex.go 40-42: Truncate *)
Definition truncate (sec truncate_sec : Z) : Z :=
  to_unix (go_truncate (unix sec) (i64 (second * truncate_sec))).
(** truncatex.go 20-38 *)
Definition truncate_week sec := truncate sec (1 * 60 * 60 * 24 * 7).
(** truncatex.go 24-26: TruncateDay *)
Definition truncate_day sec := truncate sec (1 * 60 * 60 * 24).
(** truncatex.go 28-30: TruncateHour *)
Definition truncate_hour sec := truncate sec (1 * 60 * 60).
(** truncatex.go 32-34: TruncateMin *)
Definition truncate_min sec := truncate sec (1 * 60).
(** truncatex.go 36-38: TruncateSec *)
Definition truncate_sec sec := truncate sec 1.

(** *** Time.Year, Time.Month (absDate) and time.Date; truncatex.go 10-11, 15-17 *)
Definition absolute_zero_year : Z := -292277022399.
(** unixToInternal + internalToAbsolute; truncatex.go 10, 15-16 *)
Definition unix_to_absolute : Z := 9223372028715321600.
(** time.go, Time.abs in UTC, under truncatex.go 10-11, 15-17 *)
Definition abs_of (t : gotime) : Z := u64 (to_unix t + unix_to_absolute).
(** (year, day of the year) truncatex.go 10, 15-16 *)
Definition abs_year (abs : Z) : Z * Z :=
  let d := abs / 86400 in
  let n := d / 146097 in
  let y := 400 * n in
  let d := d - 146097 * n in
  let n := d / 36524 in let n := n - Z.shiftr n 2 in
  let y := y + 100 * n in
  let d := d - 36524 * n in
  let n := d / 1461 in
  let y := y + 4 * n in
  let d := d - 1461 * n in
  let n := d / 365 in let n := n - Z.shiftr n 2 in
  let y := y + n in
  let d := d - 365 * n in
  (y + absolute_zero_year, d).
(** time.go, isLeap, under truncatex.go 11, 17 *)
Definition is_leap (year : Z) : bool :=
  (Z.rem year 4 =? 0) && (negb (Z.rem year 100 =? 0) || (Z.rem year 400 =? 0)).
(** time.go, daysBefore, under truncatex.go 17 *)
Definition days_before (m : Z) : Z :=
  nth (Z.to_nat m) [0; 31; 59; 90; 120; 151; 181; 212; 243; 273; 304; 334; 365] 0.
(** the month (1 to 12) of a day of the year *)
Definition abs_month (year yday : Z) : Z :=
  let after := is_leap year && (59 <? yday) in
  if is_leap year && (yday =? 59) then 2 else
  let d := if after then yday - 1 else yday in
  let month := d / 31 in
  (if days_before (month + 1) <=? d then month + 1 else month) + 1.
(** Time.Year, truncatex.go 10, 15-16 *)
Definition year_of (t : gotime) : Z := (abs_year (abs_of t)).1.
(** Time.Month, truncatex.go 16 *)
Definition month_of (t : gotime) : Z := let '(y, d) := abs_year (abs_of t) in abs_month y d.
(** time.go, daysSinceEpoch, under truncatex.go 11, 17 *)
Definition days_since_epoch (year : Z) : Z :=
  let y := u64 (year - absolute_zero_year) in
  let n := y / 400 in let y := y - 400 * n in let d := 146097 * n in
  let n := y / 100 in let y := y - 100 * n in let d := d + 36524 * n in
  let n := y / 4 in let y := y - 4 * n in let d := d + 1461 * n in
  d + 365 * y.
(** time.Date(year, month, 1, 0, 0, 0, 0, time.UTC), month in 1..12; uint64 arithmetic *)
Definition go_date (year month : Z) : gotime :=
  let d := days_since_epoch year in
  let d := d + days_before (month - 1) in
  let d := if is_leap year && (3 <=? month) then d + 1 else d in
  let abs := u64 (d * 86400) in
  unix (i64 (abs - unix_to_absolute)).
(** truncatex.go 9-12: TruncateYear *)
Definition truncate_year (sec : Z) : Z := to_unix (go_date (year_of (unix sec)) 1).
(** truncatex.go 14-18: TruncateMonth *)
Definition truncate_month (sec : Z) : Z := to_unix (go_date (year_of (unix sec)) (month_of (unix sec))).

(** *** diffx.go *)
(** Time.Equal, Time.Before without monotonic readings; for diffx.go 27 *)
Definition go_eq (a b : gotime) : bool := (g_ext a =? g_ext b) && (g_nsec a =? g_nsec b).
(** Time.Before, called by Time.Sub, diffx.go 27 *)
Definition go_before (a b : gotime) : bool := (g_ext a <? g_ext b) || ((g_ext a =? g_ext b) && (g_nsec a <? g_nsec b)).
(** Time.Sub; diffx.go 27 *)
Definition go_sub (t u : gotime) : Z :=
  let d := i64 (i64 (i64 (g_ext t - g_ext u) * second) + (g_nsec t - g_nsec u)) in
  if go_eq (go_add u d) t then d else if go_before t u then - 2^63 else 2^63 - 1.

(** Differ, diffx.go 9-16; the zero Time is January 1, year 1 *)
Record differ := DF { d_start : gotime; d_end : gotime }.
(** diffx.go 14-16: New *)
Definition d_new : differ := DF (GT 0 0) (GT 0 0).
(** calls; [now] is what the wall clock shows: timex.Now() is time.Now().UTC(),
    and UTC removes the monotonic reading; diffx.go 18-24 *)
Inductive dcall := DStart (now : gotime) | DEnd (now : gotime).
(** diffx.go 18-24: Start, End *)
Definition d_step (d : differ) (c : dcall) : differ :=
  match c with DStart now => DF now (d_end d) | DEnd now => DF (d_start d) now end.
(** diffx.go 26-28: GetDiff *)
Definition get_diff (d : differ) : Z := go_sub (d_end d) (d_start d).
