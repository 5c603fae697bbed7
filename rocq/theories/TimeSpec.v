(** The Gregorian calendar, as it is defined: years of 365 or 366 days, and the
    lengths of the months. *)
From Verif Require Import Base.

Definition day : Z := 86400.
Definition leap (y : Z) : bool := ((y mod 4 =? 0) && (negb (y mod 100 =? 0) || (y mod 400 =? 0)))%Z.
Definition year_days (y : Z) : Z := if leap y then 366 else 365.
Definition month_days (y m : Z) : Z :=
  match m with
  | 1 => 31 | 2 => if leap y then 29 else 28 | 3 => 31 | 4 => 30 | 5 => 31 | 6 => 30
  | 7 => 31 | 8 => 31 | 9 => 30 | 10 => 31 | 11 => 30 | 12 => 31 | _ => 0
  end%Z.
(** [ys y] is the Unix time of January 1 of year [y] 00:00 UTC: the years follow
    each other, and 1970 starts at 0 *)
Definition calendar (ys : Z -> Z) : Prop :=
  ys 1970%Z = 0%Z /\ forall y, ys (y + 1)%Z = (ys y + day * year_days y)%Z.
(** [ms y m]: the 1st of month [m] *)
Definition months (ys : Z -> Z) (ms : Z -> Z -> Z) : Prop :=
  forall y, ms y 1%Z = ys y /\ forall m, (1 <= m <= 12)%Z -> ms y (m + 1)%Z = (ms y m + day * month_days y m)%Z.
(** day of the week of the day that contains the given time: 0 is Sunday; January 1, 1970 was a Thursday *)
Definition weekday (sec : Z) : Z := ((sec / day + 4) mod 7)%Z.
