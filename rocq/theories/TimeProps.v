(** Properties C48-C51: timex/truncatex and timex/diffx. *)
From Verif Require Import Base TimeSpec TimeModel TimeProofs.
Local Open Scope Z.

(** C48.  [floor_to d sec]: the largest multiple of d, counted from January 1 of
    year 1 (62135596800 seconds before 1970), that is not after sec *)
Definition floor_to (d sec x : Z) : Prop :=
  (exists k, x + 62135596800 = k * d) /\ x <= sec < x + d.

(** as claimed it is false: time.Second * d wraps *)
Theorem truncate_refuted :
  ~ (forall sec d, is_i64 sec -> is_i64 d -> 0 < d -> floor_to d sec (truncate sec d)).
Proof.
  intros H. destruct (H 0 9223372037) as [[k Hk] _]; [unfold is_i64; lia|unfold is_i64; lia|lia|].
  assert (E : truncate 0 9223372037 = 0) by (vm_compute; reflexivity). rewrite E in Hk. lia.
Qed.
Print Assumptions truncate_refuted.

(** it holds for granularities up to 292 years, for times that do not overflow *)
Theorem truncate_floor_partial sec d :
  is_i64 sec -> 1 <= d <= 9223372036 -> - 2^63 + d <= sec <= 2^63 - 1 - 62135596800 ->
  floor_to d sec (truncate sec d).
Proof.
  intros Hs Hd Hr. rewrite truncate_exact by (try assumption; unfold max_sec, unix_to_internal; lia).
  pose proof (Z.mod_pos_bound (sec + unix_to_internal) d ltac:(lia)). pose proof (Z.div_mod (sec + unix_to_internal) d ltac:(lia)).
  rewrite i64_id by (unfold is_i64; lia). split; [|lia].
  exists ((sec + unix_to_internal) / d). unfold unix_to_internal in *. lia.
Qed.
Print Assumptions truncate_floor_partial.
Example truncate_floor_ex : truncate 1668661234 3600 = 1668661200 /\ truncate (-1) 7 = -4.
Proof. vm_compute. split; reflexivity. Qed.

(** such a floor is unique *)
Theorem floor_to_unique d sec x y : 0 < d -> floor_to d sec x -> floor_to d sec y -> x = y.
Proof. intros Hd [[k Hk] Hx] [[j Hj] Hy]. assert (k = j) by nia. lia. Qed.
Print Assumptions floor_to_unique.
Theorem truncate_idempotent sec d :
  is_i64 sec -> 1 <= d <= 9223372036 -> - 2^63 + 2 * d <= sec <= 2^63 - 1 - 62135596800 ->
  truncate (truncate sec d) d = truncate sec d.
Proof.
  intros Hs Hd Hr. pose proof (truncate_floor_partial sec d Hs Hd ltac:(lia)) as [[k Hk] Hf].
  set (x := truncate sec d) in *. clearbody x.
  pose proof (truncate_floor_partial x d ltac:(unfold is_i64 in *; lia) Hd ltac:(lia)) as F.
  apply (floor_to_unique d x); [lia|exact F|]. split; [exists k; exact Hk|lia].
Qed.
Print Assumptions truncate_idempotent.
Theorem truncate_monotone s1 s2 d :
  is_i64 s1 -> is_i64 s2 -> 1 <= d <= 9223372036 -> - 2^63 + d <= s1 -> s2 <= 2^63 - 1 - 62135596800 -> s1 <= s2 ->
  truncate s1 d <= truncate s2 d.
Proof.
  intros H1 H2 Hd Ha Hb Hle.
  pose proof (truncate_floor_partial s1 d H1 Hd ltac:(lia)) as [[k Hk] Hf].
  pose proof (truncate_floor_partial s2 d H2 Hd ltac:(lia)) as [[j Hj] Hg].
  destruct (Z.le_gt_cases k j); [|exfalso]; assert (0 <= d) by lia; nia.
Qed.
Print Assumptions truncate_monotone.
(** a zero or negative granularity returns the time unchanged *)
Theorem truncate_nonpositive_d sec d : is_i64 sec -> -9223372036 <= d <= 0 -> truncate sec d = sec.
Proof.
  intros Hs Hd. apply truncate_nonpositive; [exact Hs|]. rewrite i64_id; unfold is_i64, second in *; lia.
Qed.
Print Assumptions truncate_nonpositive_d.
Example truncate_nonpositive_ex : truncate 12345 (-5) = 12345. Proof. vm_compute. reflexivity. Qed.

(** C49 *)
Definition start_of_unit (u sec x : Z) : Prop := (exists k, x = k * u) /\ x <= sec < x + u.
Theorem truncate_units sec :
  is_i64 sec -> - 2^63 + 604800 <= sec <= 2^63 - 1 - 62135596800 ->
  truncate_sec sec = sec /\ start_of_unit 60 sec (truncate_min sec) /\
  start_of_unit 3600 sec (truncate_hour sec) /\ start_of_unit 86400 sec (truncate_day sec).
Proof.
  intros Hs Hr.
  assert (G : forall d q, 1 <= d <= 604800 -> 62135596800 = q * d -> start_of_unit d sec (truncate sec d)).
  { intros d q Hd Hq. destruct (truncate_floor_partial sec d Hs ltac:(lia) ltac:(lia)) as [[k Hk] Hf].
    split; [exists (k - q); lia|exact Hf]. }
  split; [|split; [|split]].
  - destruct (G 1 62135596800 ltac:(lia) eq_refl) as [_ H]. unfold truncate_sec. lia.
  - exact (G 60 1035593280 ltac:(lia) eq_refl).
  - exact (G 3600 17259888 ltac:(lia) eq_refl).
  - exact (G 86400 719162 ltac:(lia) eq_refl).
Qed.
Print Assumptions truncate_units.
Theorem truncate_week_monday sec :
  is_i64 sec -> - 2^63 + 604800 <= sec <= 2^63 - 1 - 62135596800 ->
  let x := truncate_week sec in
  (exists k, x = k * day) /\ weekday x = 1 /\ x <= sec < x + 7 * day.
Proof.
  intros Hs Hr. cbn zeta. unfold truncate_week.
  destruct (truncate_floor_partial sec 604800 Hs ltac:(lia) ltac:(lia)) as [[k Hk] Hf].
  change (1 * 60 * 60 * 24 * 7) with 604800. set (x := truncate sec 604800) in *. clearbody x.
  assert (E : x = (7 * k - 719162) * day) by (unfold day; lia).
  split; [exists (7 * k - 719162); exact E|]. split; [|unfold day; lia].
  unfold weekday. rewrite E, Z.div_mul by (unfold day; lia).
  replace (7 * k - 719162 + 4) with (1 + (k - 102737) * 7) by lia. rewrite Z_mod_plus_full. reflexivity.
Qed.
Print Assumptions truncate_week_monday.
(** Thursday 17 November 2022 and a time before 1970 *)
Example truncate_units_ex :
  truncate_day 1668661234 = 1668643200 /\ weekday 1668661234 = 4 /\ truncate_week 1668661234 = 1668384000 /\
  truncate_min (-61) = -120 /\ truncate_week (-1) = -259200.
Proof. vm_compute. repeat split; reflexivity. Qed.

(** C50: for every time from the zero of package time's absolute time on *)
Theorem truncate_year_start_partial sec ys :
  is_i64 sec -> -9223372028715321600 <= sec -> calendar ys ->
  exists y, truncate_year sec = ys y /\ ys y <= sec < ys (y + 1).
Proof. exact (truncate_year_spec sec ys). Qed.
Print Assumptions truncate_year_start_partial.
Theorem truncate_month_start_partial sec ys ms :
  is_i64 sec -> -9223372028715321600 <= sec -> calendar ys -> months ys ms ->
  exists y m, 1 <= m <= 12 /\ truncate_month sec = ms y m /\ ms y m <= sec < ms y (m + 1) /\ ys y <= sec < ys (y + 1).
Proof. exact (truncate_month_spec sec ys ms). Qed.
Print Assumptions truncate_month_start_partial.
(** a calendar exists, so the hypotheses can be met *)
Definition ys_ex (y : Z) : Z := N (y - absolute_zero_year) * 86400 - unix_to_absolute.
Definition ms_ex (y m : Z) : Z := ys_ex y + day * mdays y m.
Example calendar_ex : calendar ys_ex /\ months ys_ex ms_ex.
Proof.
  split.
  - split; [vm_compute; reflexivity|]. intros y. unfold ys_ex. replace (y + 1 - absolute_zero_year) with (y - absolute_zero_year + 1) by lia.
    rewrite N_next, leap_index. unfold year_days, day. destruct (leap y); lia.
  - intros y. split; [unfold ms_ex, mdays; rewrite andb_false_r; change (days_before (1 - 1)) with 0; lia|].
    intros m Hm. unfold ms_ex. rewrite mdays_next by exact Hm. destruct (decide (m = 12)) as [->|]; [|lia].
    assert (year_days y - mdays y 12 = 31) as -> by (unfold year_days, mdays; destruct (leap y); vm_compute; reflexivity).
    change (month_days y 12) with 31. lia.
Qed.
(** 29 February 2024 12:00 and 31 December 1969 *)
Example truncate_date_ex :
  truncate_year 1709208000 = 1704067200 /\ truncate_month 1709208000 = 1706745600 /\
  truncate_year (-1) = -31536000 /\ truncate_month (-1) = -2678400.
Proof. vm_compute. repeat split; reflexivity. Qed.
(** below it the absolute time wraps: the result is not even the start of a day *)
Theorem truncate_year_refuted :
  ~ (forall sec, is_i64 sec -> exists k, truncate_year sec = k * day).
Proof.
  intros H. destruct (H (-9223372028715321601) ltac:(unfold is_i64; lia)) as [k Hk].
  assert (E : truncate_year (-9223372028715321601) mod day <> 0) by (vm_compute; discriminate).
  apply E. rewrite Hk. apply Z_mod_mult.
Qed.
Print Assumptions truncate_year_refuted.

(** C51.  GetDiff is the difference of the two wall-clock readings of the last Start
    and the last End, limited to the range of Duration. *)
Definition good_call (c : dcall) : Prop := match c with DStart t | DEnd t => good_time t end.
Definition last_start (cs : list dcall) : gotime :=
  foldl (fun a c => match c with DStart t => t | DEnd _ => a end) (GT 0 0) cs.
Definition last_end (cs : list dcall) : gotime :=
  foldl (fun a c => match c with DEnd t => t | DStart _ => a end) (GT 0 0) cs.
Theorem get_diff_exact cs : Forall good_call cs ->
  get_diff (foldl d_step d_new cs) = clamp (ns (last_end cs) - ns (last_start cs)).
Proof.
  intros Hg. unfold get_diff.
  assert (G : forall s, good_time (d_start s) -> good_time (d_end s) ->
    let s' := foldl d_step s cs in
    good_time (d_start s') /\ good_time (d_end s') /\
    d_start s' = foldl (fun a c => match c with DStart t => t | DEnd _ => a end) (d_start s) cs /\
    d_end s' = foldl (fun a c => match c with DEnd t => t | DStart _ => a end) (d_end s) cs).
  { induction Hg as [|c cs Hc Hg IH]; intros s H1 H2; cbn; [auto|].
    destruct c as [t|t]; cbn in Hc; [apply (IH (DF t (d_end s)))|apply (IH (DF (d_start s) t))]; cbn; assumption. }
  assert (Z0 : good_time (GT 0 0)) by (unfold good_time, is_i64, second; cbn; lia).
  destruct (G d_new Z0 Z0) as (G1 & G2 & G3 & G4). rewrite go_sub_clamp by assumption. rewrite G3, G4. reflexivity.
Qed.
Print Assumptions get_diff_exact.
(** hence it is the elapsed time if the wall clock advances with the elapsed time *)
Theorem get_diff_elapsed_partial t0 t1 elapsed :
  good_time t0 -> good_time t1 -> ns t1 = ns t0 + elapsed -> 0 <= elapsed < 2^63 ->
  get_diff (foldl d_step d_new [DStart t0; DEnd t1]) = elapsed.
Proof.
  intros H0 H1 E He. rewrite (get_diff_exact [DStart t0; DEnd t1]) by (apply Forall_cons; split; [exact H0|]; apply Forall_cons; split; [exact H1|apply Forall_nil; exact I]). cbn [last_end last_start foldl]. unfold clamp. lia.
Qed.
Print Assumptions get_diff_elapsed_partial.
Example get_diff_ex : get_diff (foldl d_step d_new [DStart (GT 63804257234 999999999); DEnd (GT 63804257236 1)]) = 1000000002.
Proof. vm_compute. reflexivity. Qed.
(** but not if the wall clock is set back in between: the monotonic reading is gone *)
Theorem get_diff_refuted :
  ~ (forall t0 t1, good_time t0 -> good_time t1 -> 0 <= get_diff (foldl d_step d_new [DStart t0; DEnd t1])).
Proof.
  intros H. specialize (H (GT 63804257234 0) (GT 63804257233 0) ltac:(unfold good_time, is_i64, second; cbn; lia) ltac:(unfold good_time, is_i64, second; cbn; lia)).
  vm_compute in H. congruence.
Qed.
Print Assumptions get_diff_refuted.
