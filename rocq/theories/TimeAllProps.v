(** TruncateYear and TruncateMonth for every int64 (C50). *)
From Verif Require Import Base TimeModel TimeSpec TimeProofs TimeProps.
Local Open Scope Z.

(** *** Specification *)
(** the time package counts absolute seconds in a uint64 from its zero on; for the times
    before that, the last 258 years of the int64 range, the count wraps around, and they
    are taken for times 2^64 seconds later *)
Definition taken_for (sec : Z) : Z := if sec <? -9223372028715321600 then sec + 2^64 else sec.

(** *** Proofs *)
Lemma abs_taken sec : is_i64 sec -> abs_of (unix sec) = taken_for sec + unix_to_absolute /\ is_u64 (taken_for sec + unix_to_absolute).
Proof.
  intros Hs. unfold abs_of. rewrite to_unix_unix by assumption. unfold taken_for, is_u64, is_i64, unix_to_absolute in *.
  destruct (Z.ltb_spec sec (-9223372028715321600)).
  - split; [|lia]. unfold u64. rewrite <- (Z_mod_plus_full (sec + 9223372028715321600) 1 (2^64)). rewrite Z.mod_small; lia.
  - split; [|lia]. apply u64_id. unfold is_u64. lia.
Qed.
Lemma go_date_all ys y m w : calendar ys -> 0 <= y - absolute_zero_year -> 1 <= m <= 12 ->
  ys y + day * mdays y m <= w -> is_u64 (w + unix_to_absolute) ->
  to_unix (go_date y m) = i64 (ys y + day * mdays y m).
Proof.
  intros Hc Hy Hm Hle Hs. pose proof (calendar_N ys Hc (y - absolute_zero_year)) as HN.
  replace (y - absolute_zero_year + absolute_zero_year) with y in HN by lia.
  assert (Hmd : 0 <= mdays y m).
  { unfold mdays, days_before. assert (C : m = 1 \/ m = 2 \/ m = 3 \/ m = 4 \/ m = 5 \/ m = 6 \/ m = 7 \/ m = 8 \/ m = 9 \/ m = 10 \/ m = 11 \/ m = 12) by lia.
    repeat (destruct C as [->|C]); subst; destruct (leap y); vm_compute; discriminate. }
  assert (HNb : 365 * (y - absolute_zero_year) <= N (y - absolute_zero_year)).
  { unfold N. set (i := y - absolute_zero_year) in *. pose proof (Z.div_pos i 400 Hy ltac:(lia)).
    assert (i / 100 <= i / 4) by (apply Z.div_le_compat_l; lia). lia. }
  unfold go_date. rewrite days_since_epoch_ok.
  2:{ split; [exact Hy|]. unfold is_u64, day, unix_to_absolute in *. lia. }
  rewrite is_leap_ok.
  assert (E : (if leap y && (3 <=? m) then N (y - absolute_zero_year) + days_before (m - 1) + 1 else N (y - absolute_zero_year) + days_before (m - 1)) = N (y - absolute_zero_year) + mdays y m).
  { unfold mdays. destruct (leap y && (3 <=? m)); lia. }
  cbn zeta. rewrite E. rewrite u64_id by (unfold is_u64, day, unix_to_absolute in *; lia).
  rewrite to_unix_unix by apply i64_range. f_equal. unfold day. lia.
Qed.
Lemma date_all sec ys : is_i64 sec -> calendar ys ->
  let '(y, d) := abs_year (abs_of (unix sec)) in
  0 <= y - absolute_zero_year /\ 0 <= d < year_days y /\ ys y + day * d <= taken_for sec < ys y + day * (d + 1).
Proof.
  intros Hs Hc. destruct (abs_taken sec Hs) as [-> Hu]. set (w := taken_for sec) in *. clearbody w.
  pose proof (abs_year_ok (w + unix_to_absolute) ltac:(unfold is_u64 in Hu; lia)) as H.
  destruct (abs_year _) as [y d]. cbn zeta in H. destruct H as (Hi & E & Hd). rewrite leap_index in Hd.
  split; [exact Hi|]. split; [exact Hd|]. pose proof (calendar_N ys Hc (y - absolute_zero_year)) as HN.
  replace (y - absolute_zero_year + absolute_zero_year) with y in HN by lia. rewrite HN. unfold day.
  pose proof (Z.div_mod (w + unix_to_absolute) 86400 ltac:(lia)). pose proof (Z.mod_pos_bound (w + unix_to_absolute) 86400 ltac:(lia)). lia.
Qed.

(** C50: for every int64, the answer is the start of the calendar year, or month, of the
    time it is taken for, wrapped to an int64. *)
Theorem truncate_year_all sec ys : is_i64 sec -> calendar ys ->
  exists y, truncate_year sec = i64 (ys y) /\ ys y <= taken_for sec < ys (y + 1).
Proof.
  intros Hs Hc. pose proof (date_all sec ys Hs Hc) as H. unfold truncate_year, year_of.
  destruct (abs_year _) as [y d]. destruct H as (Hi & Hd & Hsec). cbn [fst].
  assert (M1 : mdays y 1 = 0) by (unfold mdays; rewrite andb_false_r; reflexivity).
  exists y. pose proof Hc as [_ Hc1]. rewrite (go_date_all ys y 1 (taken_for sec)); [|exact Hc|exact Hi|lia| |apply abs_taken; exact Hs].
  - rewrite M1, Hc1. split; [f_equal; lia|]. unfold day in *. lia.
  - rewrite M1. unfold day in *. lia.
Qed.
Print Assumptions truncate_year_all.
Theorem truncate_month_all sec ys ms : is_i64 sec -> calendar ys -> months ys ms ->
  exists y m, 1 <= m <= 12 /\ truncate_month sec = i64 (ms y m) /\ ms y m <= taken_for sec < ms y (m + 1) /\ ys y <= taken_for sec < ys (y + 1).
Proof.
  intros Hs Hc Hms. pose proof (date_all sec ys Hs Hc) as H. unfold truncate_month, year_of, month_of.
  destruct (abs_year _) as [y d]. destruct H as (Hi & Hd & Hsec). cbn [fst].
  destruct (abs_month_ok y d Hd) as [Hmr Hmd]. set (m := abs_month y d) in *. clearbody m.
  exists y, m. split; [exact Hmr|]. rewrite (go_date_all ys y m (taken_for sec)); [|assumption|exact Hi|exact Hmr| |apply abs_taken; exact Hs].
  - rewrite !(months_mdays ys ms Hc Hms) by lia. destruct Hc as [_ Hc1]. rewrite Hc1. unfold day in *. split; [reflexivity|]. split; [|lia]. nia.
  - unfold day in *. nia.
Qed.
Print Assumptions truncate_month_all.
(** a year has one start, so the answer is the only one *)
Theorem year_start_unique ys w y1 y2 : calendar ys -> ys y1 <= w < ys (y1 + 1) -> ys y2 <= w < ys (y2 + 1) -> y1 = y2.
Proof.
  intros [_ Hc] H1 H2.
  assert (G : forall k, 0 <= k -> forall y, ys y <= ys (y + k)).
  { intros k Hk. pattern k. apply natlike_ind; [|clear k Hk; intros k Hk IH|exact Hk]; intros y; [rewrite Z.add_0_r; lia|].
    replace (y + Z.succ k) with (y + k + 1) by lia. rewrite Hc. specialize (IH y). unfold day, year_days. destruct (leap _); lia. }
  destruct (Z.lt_trichotomy y1 y2) as [L|[->|L]]; [|reflexivity|].
  - pose proof (G (y2 - (y1 + 1)) ltac:(lia) (y1 + 1)) as X. replace (y1 + 1 + (y2 - (y1 + 1))) with y2 in X by lia. lia.
  - pose proof (G (y1 - (y2 + 1)) ltac:(lia) (y2 + 1)) as X. replace (y2 + 1 + (y1 - (y2 + 1))) with y1 in X by lia. lia.
Qed.
Print Assumptions year_start_unique.
(** the first int64 and its year: it is taken for the year 292277026596 and the answer is
    that year's start, wrapped, far in the future *)
Example truncate_year_first : taken_for (- 2^63) = 2^63 /\ truncate_year (- 2^63) = 9223372036825516800.
Proof. vm_compute. split; reflexivity. Qed.
