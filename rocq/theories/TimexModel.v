(** Model of timex/timex.go: Custom with both its arguments, over time.Unix (Go
    1.19, time.go). *)
From Verif Require Import Base TimeModel.
Local Open Scope Z.

(** time.Unix: seconds and nanoseconds, the latter brought into [0, 10^9) *)
Definition go_unix (sec nsec : Z) : gotime :=
  let '(sec, nsec) :=
    if (nsec <? 0) || (second <=? nsec) then
      let n := Z.quot nsec second in
      let sec := i64 (sec + n) in
      let nsec := i64 (nsec - i64 (n * second)) in
      if nsec <? 0 then (i64 (sec - 1), i64 (nsec + second)) else (sec, nsec)
    else (sec, nsec) in
  GT (i64 (sec + unix_to_internal)) nsec.
(** timex.go:9-11; UTC changes the location only *)
Definition custom (sec nsec : Z) : gotime := go_unix sec nsec.
(** Time.Nanosecond; what timex.go 10 gives *)
Definition nanosecond (t : gotime) : Z := g_nsec t.
