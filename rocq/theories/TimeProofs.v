From Verif Require Import Base TimeSpec TimeModel.
Local Open Scope Z.

Ltac big := unfold is_i64, i64, u64, unix_to_internal, unix_to_absolute, second, absolute_zero_year in *.

Lemma to_unix_unix sec : is_i64 sec -> to_unix (unix sec) = sec.
Proof.
  intros H. unfold to_unix, unix. cbn. unfold i64, unix_to_internal, is_i64 in *.
  replace (((sec + 62135596800 + 2 ^ 63) mod 2 ^ 64 - 2 ^ 63 - 62135596800 + 2 ^ 63))
    with ((sec + 62135596800 + 2 ^ 63) mod 2 ^ 64 - 62135596800) by lia.
  rewrite Zminus_mod_idemp_l. rewrite Z.mod_small; lia.
Qed.
Definition max_sec : Z := 2^63 - 1 - unix_to_internal.

(** no overflow: exact remainder *)
Lemma truncate_exact sec n : is_i64 sec -> sec <= max_sec -> 1 <= n <= 9223372036 ->
  truncate sec n = i64 (sec - (sec + unix_to_internal) mod n).
Proof.
  intros Hs Hm Hn. unfold truncate, max_sec in *.
  assert (E : i64 (second * n) = second * n) by (apply i64_id; unfold is_i64, second; lia). rewrite E.
  unfold go_truncate, unix. rewrite (i64_id (sec + _)) by (unfold is_i64, unix_to_internal in *; lia).
  destruct (Z.leb_spec (second * n) 0); [unfold second in *; lia|].
  set (T := sec + unix_to_internal). assert (HT : - 2^63 + 62135596800 <= T <= 2^63 - 1) by (subst T; unfold is_i64, unix_to_internal in *; lia).
  assert (Hd : go_div (GT T 0) (second * n) = second * (T mod n)).
  { unfold go_div. cbn [g_ext g_nsec].
    assert (C1 : (second * n <? second) = false) by (apply Z.ltb_ge; unfold second; lia). rewrite C1. cbn [andb].
    assert (C2 : Z.rem (second * n) second = 0) by (rewrite Z.mul_comm; apply Z.rem_mul; unfold second; lia). rewrite C2, Z.eqb_refl.
    assert (C3 : Z.quot (second * n) second = n) by (rewrite Z.mul_comm; apply Z.quot_mul; unfold second; lia). rewrite C3.
    destruct (Z.ltb_spec T 0) as [Hneg|Hpos].
    - change (- 0) with 0. change (0 <? 0) with false. cbv beta iota zeta. rewrite (i64_id (- T)) by (unfold is_i64; lia).
      rewrite Z.rem_mod_nonneg by lia. pose proof (Z.mod_pos_bound (- T) n ltac:(lia)).
      rewrite (i64_id (_ * _)) by (unfold is_i64, second; nia). rewrite Z.add_0_r, i64_id by (unfold is_i64, second; nia).
      destruct (decide (T mod n = 0)) as [Z0|Z0].
      + rewrite (Z_mod_zero_opp_full _ _ Z0), Z0. reflexivity.
      + rewrite (Z_mod_nz_opp_full _ _ Z0) in *. pose proof (Z.mod_pos_bound T n ltac:(lia)). destruct (Z.eqb_spec ((n - T mod n) * second) 0); [unfold second in *; lia|]. cbn [andb negb]. rewrite i64_id by (unfold is_i64, second in *; nia). lia.
    - cbn [andb]. rewrite Z.rem_mod_nonneg by lia. pose proof (Z.mod_pos_bound T n ltac:(lia)).
      rewrite (i64_id (_ * _)) by (unfold is_i64, second; nia). rewrite Z.add_0_r, i64_id by (unfold is_i64, second; nia). lia. }
  rewrite Hd. pose proof (Z.mod_pos_bound T n ltac:(lia)) as Hr. rewrite (i64_id (- _)) by (unfold is_i64, second; nia). unfold go_add. cbn [g_ext g_nsec].
  replace (- (second * (T mod n))) with (- (T mod n) * second) by lia.
  rewrite Z.rem_mul, Z.quot_mul by (unfold second; lia).
  assert (C4 : (second <=? 0 + 0) = false) by reflexivity. rewrite C4.
  assert (C5 : (0 + 0 <? 0) = false) by reflexivity. rewrite C5.
  unfold to_unix. cbn [g_ext]. unfold add_sec. rewrite (i64_id (T + - (T mod n))) by (unfold is_i64; lia).
  assert (C6 : Bool.eqb (T <? T + - (T mod n)) (0 <? - (T mod n)) = true).
  { destruct (Z.ltb_spec T (T + - (T mod n))), (Z.ltb_spec 0 (- (T mod n))); try lia; reflexivity. }
  rewrite C6. subst T. f_equal. lia.
Qed.
(** a non-positive granularity (after wrapping) leaves the time alone *)
Lemma truncate_nonpositive sec n : is_i64 sec -> i64 (second * n) <= 0 -> truncate sec n = sec.
Proof.
  intros Hs Hn. unfold truncate, go_truncate. destruct (Z.leb_spec (i64 (second * n)) 0); [|lia]. apply to_unix_unix, Hs.
Qed.

(** *** the calendar *)
(** days before the year with index i *)
Definition N (i : Z) : Z := 365 * i + i / 4 - i / 100 + i / 400.
Lemma N_parts a b c e : 0 <= b <= 3 -> 0 <= c <= 24 -> 0 <= e <= 3 ->
  N (400 * a + 100 * b + 4 * c + e) = 146097 * a + 36524 * b + 1461 * c + 365 * e.
Proof.
  intros Hb Hc He. unfold N.
  replace ((400 * a + 100 * b + 4 * c + e) / 4) with (100 * a + 25 * b + c) by (apply Z.div_unique with e; lia).
  replace ((400 * a + 100 * b + 4 * c + e) / 100) with (4 * a + b) by (apply Z.div_unique with (4 * c + e); lia).
  replace ((400 * a + 100 * b + 4 * c + e) / 400) with a by (apply Z.div_unique with (100 * b + 4 * c + e); lia). lia.
Qed.
Lemma N_next i : N (i + 1) = N i + (if leap (i + 1) then 366 else 365).
Proof.
  unfold N, leap.
  assert (G : forall k, 0 < k -> (i + 1) / k = i / k + (if (i + 1) mod k =? 0 then 1 else 0)).
  { intros k Hk. pose proof (Z.div_mod i k ltac:(lia)). pose proof (Z.mod_pos_bound i k Hk).
    destruct (Z.eqb_spec ((i + 1) mod k) 0) as [E|E].
    - pose proof (Z.div_mod (i + 1) k ltac:(lia)). nia.
    - pose proof (Z.div_mod (i + 1) k ltac:(lia)). pose proof (Z.mod_pos_bound (i + 1) k Hk). nia. }
  rewrite !G by lia.
  assert (M1 : (i + 1) mod 400 = 0 -> (i + 1) mod 100 = 0).
  { intros E. apply Z.mod_divide in E as [q Hq]; [|lia]. apply Z.mod_divide; [lia|]. exists (4 * q). lia. }
  assert (M2 : (i + 1) mod 100 = 0 -> (i + 1) mod 4 = 0).
  { intros E. apply Z.mod_divide in E as [q Hq]; [|lia]. apply Z.mod_divide; [lia|]. exists (25 * q). lia. }
  destruct (Z.eqb_spec ((i + 1) mod 4) 0), (Z.eqb_spec ((i + 1) mod 100) 0), (Z.eqb_spec ((i + 1) mod 400) 0); cbn; try lia; tauto.
Qed.
Lemma leap_period y k : leap (y + 400 * k) = leap y.
Proof.
  unfold leap. replace (y + 400 * k) with (y + (100 * k) * 4) by lia. rewrite Z_mod_plus_full.
  replace (y + 100 * k * 4) with (y + (4 * k) * 100) by lia. rewrite Z_mod_plus_full.
  replace (y + 4 * k * 100) with (y + k * 400) by lia. rewrite Z_mod_plus_full. reflexivity.
Qed.
Lemma is_leap_ok y : is_leap y = leap y.
Proof.
  unfold is_leap, leap.
  assert (G : forall k, 0 < k -> (Z.rem y k =? 0) = (y mod k =? 0)).
  { intros k Hk. apply eq_true_iff_eq. rewrite !Z.eqb_eq, Z.rem_divide, Z.mod_divide by lia. reflexivity. }
  rewrite !G by lia. reflexivity.
Qed.
Lemma abs_year_ok abs : 0 <= abs ->
  let '(y, d) := abs_year abs in
  let i := y - absolute_zero_year in
  0 <= i /\ abs / 86400 = N i + d /\ 0 <= d < (if leap (i + 1) then 366 else 365).
Proof.
  intros Ha. unfold abs_year. set (D := abs / 86400). assert (HD : 0 <= D) by (apply Z.div_pos; lia).
  set (a := D / 146097). set (d1 := D - 146097 * a).
  assert (Ea : D = 146097 * a + d1 /\ 0 <= d1 < 146097 /\ 0 <= a).
  { subst d1 a. pose proof (Z.div_mod D 146097 ltac:(lia)). pose proof (Z.mod_pos_bound D 146097 ltac:(lia)).
    split; [lia|]. split; [lia|]. apply Z.div_pos; lia. }
  clearbody a d1. destruct Ea as (Ea & Hd1 & Ha0).
  set (b0 := d1 / 36524). set (b := b0 - Z.shiftr b0 2).
  assert (Eb : exists d2, d2 = d1 - 36524 * b /\ 0 <= b <= 3 /\ (0 <= d2 < 36524 \/ (b = 3 /\ d2 = 36524))).
  { exists (d1 - 36524 * b). split; [reflexivity|]. pose proof (Z.div_mod d1 36524 ltac:(lia)) as E1. pose proof (Z.mod_pos_bound d1 36524 ltac:(lia)) as B1.
    fold b0 in E1. set (r := d1 mod 36524) in *. clearbody r. assert (Hb0 : 0 <= b0 <= 4) by nia. subst b. rewrite !Z.shiftr_div_pow2 by lia.
    assert (C : b0 = 0 \/ b0 = 1 \/ b0 = 2 \/ b0 = 3 \/ b0 = 4) by lia.
    clearbody b0. destruct C as [->|[->|[->|[->| ->]]]];
      [change (0 - 0 / 2 ^ 2) with 0|change (1 - 1 / 2 ^ 2) with 1|change (2 - 2 / 2 ^ 2) with 2|change (3 - 3 / 2 ^ 2) with 3|change (4 - 4 / 2 ^ 2) with 3]; lia. }
  clearbody b. clear b0. destruct Eb as (d2 & Ed2 & Hb & Hd2). rewrite <- Ed2.
  set (c := d2 / 1461). assert (Ec : 0 <= c <= 24 /\ 0 <= d2 - 1461 * c < 1461 /\ (c = 24 -> b < 3 -> d2 - 1461 * c < 1460)).
  { subst c. pose proof (Z.div_mod d2 1461 ltac:(lia)). pose proof (Z.mod_pos_bound d2 1461 ltac:(lia)). nia. }
  clearbody c. destruct Ec as (Hc & Hd3 & Hc24). set (d3 := d2 - 1461 * c) in *.
  set (e0 := d3 / 365). set (e := e0 - Z.shiftr e0 2).
  assert (Ee : 0 <= e <= 3 /\ 0 <= d3 - 365 * e /\ (d3 - 365 * e < 365 \/ (e = 3 /\ d3 - 365 * e < 366 /\ d3 = 1460))).
  { pose proof (Z.div_mod d3 365 ltac:(lia)) as E1. pose proof (Z.mod_pos_bound d3 365 ltac:(lia)) as B1.
    fold e0 in E1. set (r := d3 mod 365) in *. clearbody r. assert (He0 : 0 <= e0 <= 4) by nia. subst e. rewrite !Z.shiftr_div_pow2 by lia.
    assert (C : e0 = 0 \/ e0 = 1 \/ e0 = 2 \/ e0 = 3 \/ e0 = 4) by lia.
    clearbody e0. destruct C as [->|[->|[->|[->| ->]]]];
      [change (0 - 0 / 2 ^ 2) with 0|change (1 - 1 / 2 ^ 2) with 1|change (2 - 2 / 2 ^ 2) with 2|change (3 - 3 / 2 ^ 2) with 3|change (4 - 4 / 2 ^ 2) with 3]; lia. }
  clearbody e. clear e0. destruct Ee as (He & Hd4 & Hd4').
  replace (400 * a + 100 * b + 4 * c + e + absolute_zero_year - absolute_zero_year) with (400 * a + 100 * b + 4 * c + e) by lia.
  cbn zeta. split; [lia|]. rewrite N_parts by lia. split; [subst d3; lia|]. split; [exact Hd4|].
  destruct Hd4' as [Hd4'|(-> & Hd4' & E3)]; [destruct (leap _); lia|].
  assert (L : leap (400 * a + 100 * b + 4 * c + 3 + 1) = true).
  { unfold leap. replace (400 * a + 100 * b + 4 * c + 3 + 1) with ((100 * a + 25 * b + c + 1) * 4) by lia. rewrite Z_mod_mult. cbn [andb Z.eqb].
    destruct (decide (c = 24)) as [->|Hc'].
    - assert (b = 3) as -> by lia. replace ((100 * a + 25 * 3 + 24 + 1) * 4) with ((a + 1) * 400) by lia. rewrite Z_mod_mult. apply orb_true_r.
    - apply orb_true_intro. left. apply negb_true_iff. apply Z.eqb_neq.
      replace ((100 * a + 25 * b + c + 1) * 4) with (4 * c + 4 + (4 * a + b) * 100) by lia. rewrite Z_mod_plus_full, Z.mod_small by lia. lia. }
  rewrite L. exact Hd4'.
Qed.
Lemma days_since_epoch_ok year : 0 <= year - absolute_zero_year < 2^64 -> days_since_epoch year = N (year - absolute_zero_year).
Proof.
  intros H. unfold days_since_epoch. rewrite u64_id by exact H. set (y := year - absolute_zero_year) in *.
  pose proof (Z.div_mod y 400 ltac:(lia)) as E1. pose proof (Z.mod_pos_bound y 400 ltac:(lia)) as B1. set (a := y / 400) in *. clearbody a.
  set (y1 := y - 400 * a). assert (Hy1 : 0 <= y1 < 400) by (subst y1; lia).
  pose proof (Z.div_mod y1 100 ltac:(lia)) as E2. pose proof (Z.mod_pos_bound y1 100 ltac:(lia)) as B2. set (b := y1 / 100) in *. clearbody b.
  set (y2 := y1 - 100 * b). assert (Hy2 : 0 <= y2 < 100) by (subst y2; lia).
  pose proof (Z.div_mod y2 4 ltac:(lia)) as E3. pose proof (Z.mod_pos_bound y2 4 ltac:(lia)) as B3. set (c := y2 / 4) in *. clearbody c.
  set (e := y2 - 4 * c). replace y with (400 * a + 100 * b + 4 * c + e) by (subst y1 y2 e; lia).
  rewrite N_parts by (subst y1 y2 e; lia). lia.
Qed.

(** days before each month of a year *)
Definition mdays (y m : Z) : Z := days_before (m - 1) + (if leap y && (3 <=? m) then 1 else 0).
Lemma mdays_next y m : 1 <= m <= 12 -> mdays y (m + 1) = mdays y m + (if decide (m = 12) then year_days y - mdays y 12 else month_days y m).
Proof.
  intros H. unfold mdays, month_days, year_days.
  assert (C : m = 1 \/ m = 2 \/ m = 3 \/ m = 4 \/ m = 5 \/ m = 6 \/ m = 7 \/ m = 8 \/ m = 9 \/ m = 10 \/ m = 11 \/ m = 12) by lia.
  repeat (destruct C as [->|C]); subst; destruct (leap y); cbn; reflexivity.
Qed.
Lemma month_table : forall d, (d < 365)%nat ->
  let month := Z.of_nat d / 31 in
  let m := if days_before (month + 1) <=? Z.of_nat d then month + 1 else month in
  0 <= m <= 11 /\ days_before m <= Z.of_nat d < days_before (m + 1).
Proof.
  intros d Hd. cbn zeta.
  set (P := fun d => let month := Z.of_nat d / 31 in
    let m := if days_before (month + 1) <=? Z.of_nat d then month + 1 else month in
    (0 <=? m) && (m <=? 11) && (days_before m <=? Z.of_nat d) && (Z.of_nat d <? days_before (m + 1))).
  assert (G : forallb P (seq 0 365) = true) by (vm_compute; reflexivity).
  rewrite forallb_forall in G. specialize (G d ltac:(apply in_seq; lia)). unfold P in G. cbn zeta in G.
  rewrite !andb_true_iff, !Z.leb_le, Z.ltb_lt in G. lia.
Qed.
Lemma abs_month_ok y d : 0 <= d < year_days y ->
  1 <= abs_month y d <= 12 /\ mdays y (abs_month y d) <= d < mdays y (abs_month y d + 1).
Proof.
  intros Hd. unfold abs_month. rewrite !is_leap_ok. unfold year_days in Hd.
  assert (T : forall d', 0 <= d' < 365 ->
    let month := d' / 31 in let m := if days_before (month + 1) <=? d' then month + 1 else month in
    0 <= m <= 11 /\ days_before m <= d' < days_before (m + 1)).
  { intros d' Hd'. pose proof (month_table (Z.to_nat d') ltac:(lia)) as M. rewrite Z2Nat.id in M by lia. exact M. }
  assert (B : forall m, 0 <= m <= 11 -> (m <= 1 -> days_before (m + 1) <= 59) /\ (2 <= m -> 59 <= days_before m)).
  { intros m Hm. assert (C : m = 0 \/ m = 1 \/ m = 2 \/ m = 3 \/ m = 4 \/ m = 5 \/ m = 6 \/ m = 7 \/ m = 8 \/ m = 9 \/ m = 10 \/ m = 11) by lia.
    repeat (destruct C as [->|C]); subst; (split; intros; [first [lia|vm_compute; discriminate]|first [lia|vm_compute; discriminate]]). }
  destruct (leap y) eqn:L; cbn [andb].
  - destruct (Z.eqb_spec d 59) as [->|N59].
    + unfold mdays. rewrite L. split; [lia|]. split; [vm_compute; discriminate|vm_compute; reflexivity].
    + set (d' := if 59 <? d then d - 1 else d). specialize (T d' ltac:(subst d'; destruct (Z.ltb_spec 59 d); lia)). cbn zeta in T |- *.
      set (m := if days_before (d' / 31 + 1) <=? d' then d' / 31 + 1 else d' / 31) in *. clearbody m. destruct T as [T1 T2].
      split; [lia|]. unfold mdays. rewrite L. cbn [andb].
      replace (m + 1 - 1) with m by lia. replace (m + 1 + 1 - 1) with (m + 1) by lia. destruct (B m T1) as [B1 B2].
      assert (D : d' = d /\ d < 59 \/ d' = d - 1 /\ 59 <= d') by (subst d'; destruct (Z.ltb_spec 59 d); lia). clearbody d'.
      destruct (Z.leb_spec 3 (m + 1)), (Z.leb_spec 3 (m + 1 + 1)), D as [D|D]; lia.
  - specialize (T d Hd). cbn zeta in T |- *.
    set (m := if days_before (d / 31 + 1) <=? d then d / 31 + 1 else d / 31) in *. clearbody m. destruct T as [T1 T2].
    split; [lia|]. unfold mdays. rewrite L. cbn [andb]. replace (m + 1 - 1) with m by lia. replace (m + 1 + 1 - 1) with (m + 1) by lia. lia.
Qed.

(** *** the year and month functions *)
Lemma calendar_N ys : calendar ys -> forall i, ys (i + absolute_zero_year) = (N i * 86400 - unix_to_absolute).
Proof.
  intros [H0 Hs].
  assert (G : forall k, 0 <= k -> forall i, ys (i + absolute_zero_year) = N i * 86400 - unix_to_absolute <-> ys (i + k + absolute_zero_year) = N (i + k) * 86400 - unix_to_absolute).
  { intros k Hk. pattern k. apply natlike_ind; [|clear k Hk; intros k Hk IH|exact Hk]; intros i.
    - rewrite Z.add_0_r. reflexivity.
    - rewrite (IH i). replace (i + Z.succ k) with (i + k + 1) by lia. rewrite N_next.
      replace (i + k + 1 + absolute_zero_year) with (i + k + absolute_zero_year + 1) by lia. rewrite Hs. unfold year_days, day.
      replace (leap (i + k + absolute_zero_year)) with (leap (i + k + 1)).
      2:{ unfold absolute_zero_year. rewrite <- (leap_period (i + k + -292277022399) 730692556). f_equal. lia. }
      destruct (leap (i + k + 1)); lia. }
  set (i0 := 1970 - absolute_zero_year).
  assert (B : ys (i0 + absolute_zero_year) = N i0 * 86400 - unix_to_absolute).
  { subst i0. replace (1970 - absolute_zero_year + absolute_zero_year) with 1970 by lia. rewrite H0. vm_compute. reflexivity. }
  intros i. destruct (Z.le_gt_cases i i0).
  - apply (G (i0 - i) ltac:(lia) i). replace (i + (i0 - i)) with i0 by lia. exact B.
  - pose proof (proj1 (G (i - i0) ltac:(lia) i0) B) as E. replace (i0 + (i - i0)) with i in E by lia. exact E.
Qed.
Lemma leap_index y : leap (y - absolute_zero_year + 1) = leap y.
Proof. unfold absolute_zero_year. rewrite <- (leap_period y 730692556). f_equal. lia. Qed.
Lemma months_mdays ys ms : calendar ys -> months ys ms -> forall y m, 1 <= m <= 13 -> ms y m = ys y + day * mdays y m.
Proof.
  intros Hc Hm y m H. destruct (Hm y) as [H1 Hn].
  assert (G : forall k, 0 <= k -> k <= 12 -> ms y (1 + k) = ys y + day * mdays y (1 + k)).
  { intros k Hk. pattern k. apply natlike_ind; [|clear k Hk; intros k Hk IH|exact Hk].
    - intros _. replace (1 + 0) with 1 by lia. rewrite H1. unfold mdays. rewrite andb_false_r. change (days_before (1 - 1)) with 0. lia.
    - intros Hle. replace (1 + Z.succ k) with (1 + k + 1) by lia. rewrite Hn by lia. rewrite IH by lia. rewrite mdays_next by lia.
      destruct (decide (1 + k = 12)) as [E|E].
      + rewrite E. assert (year_days y - mdays y 12 = 31) as -> by (unfold year_days, mdays; destruct (leap y); vm_compute; reflexivity).
        change (month_days y 12) with 31. lia.
      + lia. }
  replace m with (1 + (m - 1)) by lia. apply G; lia.
Qed.
Definition min_date : Z := - unix_to_absolute.
Lemma abs_of_unix sec : is_i64 sec -> min_date <= sec -> abs_of (unix sec) = sec + unix_to_absolute.
Proof.
  intros Hs Hm. unfold abs_of. rewrite to_unix_unix by assumption. apply u64_id. unfold is_u64, is_i64, min_date, unix_to_absolute in *. lia.
Qed.
Lemma go_date_ok ys y m sec : calendar ys -> 0 <= y - absolute_zero_year -> 1 <= m <= 12 ->
  ys y + day * mdays y m <= sec -> is_i64 sec ->
  to_unix (go_date y m) = ys y + day * mdays y m.
Proof.
  intros Hc Hy Hm Hle Hs. pose proof (calendar_N ys Hc (y - absolute_zero_year)) as HN.
  replace (y - absolute_zero_year + absolute_zero_year) with y in HN by lia.
  assert (Hmd : 0 <= mdays y m).
  { unfold mdays, days_before. assert (C : m = 1 \/ m = 2 \/ m = 3 \/ m = 4 \/ m = 5 \/ m = 6 \/ m = 7 \/ m = 8 \/ m = 9 \/ m = 10 \/ m = 11 \/ m = 12) by lia.
    repeat (destruct C as [->|C]); subst; destruct (leap y); vm_compute; discriminate. }
  assert (HNb : 365 * (y - absolute_zero_year) <= N (y - absolute_zero_year)).
  { unfold N. set (i := y - absolute_zero_year) in *. pose proof (Z.div_pos i 400 Hy ltac:(lia)).
    assert (i / 100 <= i / 4) by (apply Z.div_le_compat_l; lia). lia. }
  unfold go_date. rewrite days_since_epoch_ok.
  2:{ split; [exact Hy|]. unfold is_i64, day, unix_to_absolute in *. lia. }
  rewrite is_leap_ok.
  assert (E : (if leap y && (3 <=? m) then N (y - absolute_zero_year) + days_before (m - 1) + 1 else N (y - absolute_zero_year) + days_before (m - 1)) = N (y - absolute_zero_year) + mdays y m).
  { unfold mdays. destruct (leap y && (3 <=? m)); lia. }
  cbn zeta. rewrite E. rewrite u64_id by (unfold is_u64, is_i64, day, unix_to_absolute in *; lia).
  rewrite to_unix_unix.
  - rewrite i64_id; unfold is_i64, day, unix_to_absolute in *; lia.
  - rewrite i64_id; unfold is_i64, day, unix_to_absolute in *; lia.
Qed.

Lemma date_of sec ys : is_i64 sec -> min_date <= sec -> calendar ys ->
  let '(y, d) := abs_year (abs_of (unix sec)) in
  0 <= y - absolute_zero_year /\ 0 <= d < year_days y /\ ys y + day * d <= sec < ys y + day * (d + 1).
Proof.
  intros Hs Hm Hc. rewrite abs_of_unix by assumption.
  pose proof (abs_year_ok (sec + unix_to_absolute) ltac:(unfold min_date in Hm; lia)) as H.
  destruct (abs_year _) as [y d]. cbn zeta in H. destruct H as (Hi & E & Hd). rewrite leap_index in Hd.
  split; [exact Hi|]. split; [exact Hd|]. pose proof (calendar_N ys Hc (y - absolute_zero_year)) as HN.
  replace (y - absolute_zero_year + absolute_zero_year) with y in HN by lia. rewrite HN. unfold day.
  pose proof (Z.div_mod (sec + unix_to_absolute) 86400 ltac:(lia)). pose proof (Z.mod_pos_bound (sec + unix_to_absolute) 86400 ltac:(lia)). lia.
Qed.
Theorem truncate_year_spec sec ys : is_i64 sec -> min_date <= sec -> calendar ys ->
  exists y, truncate_year sec = ys y /\ ys y <= sec < ys (y + 1).
Proof.
  intros Hs Hm Hc. pose proof (date_of sec ys Hs Hm Hc) as H. unfold truncate_year, year_of.
  destruct (abs_year _) as [y d]. destruct H as (Hi & Hd & Hsec). cbn [fst].
  assert (M1 : mdays y 1 = 0) by (unfold mdays; rewrite andb_false_r; reflexivity).
  exists y. destruct Hc as [Hc0 Hc1]. rewrite (go_date_ok ys y 1 sec); [|split; assumption|exact Hi|lia| |exact Hs].
  - rewrite M1, Hc1. unfold day in *. lia.
  - rewrite M1. unfold day in *. lia.
Qed.
Theorem truncate_month_spec sec ys ms : is_i64 sec -> min_date <= sec -> calendar ys -> months ys ms ->
  exists y m, 1 <= m <= 12 /\ truncate_month sec = ms y m /\ ms y m <= sec < ms y (m + 1) /\ ys y <= sec < ys (y + 1).
Proof.
  intros Hs Hm Hc Hms. pose proof (date_of sec ys Hs Hm Hc) as H. unfold truncate_month, year_of, month_of.
  destruct (abs_year _) as [y d]. destruct H as (Hi & Hd & Hsec). cbn [fst].
  destruct (abs_month_ok y d Hd) as [Hmr Hmd]. set (m := abs_month y d) in *. clearbody m.
  exists y, m. split; [exact Hmr|]. rewrite (go_date_ok ys y m sec); [|assumption|exact Hi|exact Hmr| |exact Hs].
  - rewrite !(months_mdays ys ms Hc Hms) by lia. destruct Hc as [_ Hc1]. rewrite Hc1. unfold day in *. split; [reflexivity|]. split; [|lia]. nia.
  - unfold day in *. nia.
Qed.

(** *** Sub *)
Definition ns (t : gotime) : Z := g_ext t * second + g_nsec t.
Definition good_time (t : gotime) : Prop := is_i64 (g_ext t) /\ 0 <= g_nsec t < second.
Definition clamp (z : Z) : Z := Z.max (- 2^63) (Z.min (2^63 - 1) z).
Lemma go_eq_ns a b : good_time a -> good_time b -> go_eq a b = true <-> ns a = ns b.
Proof.
  intros [_ Ha] [_ Hb]. unfold go_eq, ns. rewrite andb_true_iff, !Z.eqb_eq. unfold second in *. split; [intros [-> ->]; reflexivity|]. lia.
Qed.
Lemma go_before_ns a b : good_time a -> good_time b -> go_before a b = true <-> ns a < ns b.
Proof.
  intros [_ Ha] [_ Hb]. unfold go_before, ns. rewrite orb_true_iff, andb_true_iff, !Z.ltb_lt, Z.eqb_eq. unfold second in *. lia.
Qed.
Lemma go_add_ns u d : good_time u -> is_i64 d ->
  good_time (go_add u d) /\ is_i64 (ns (go_add u d) - ns u) /\
  (ns (go_add u d) = ns u + d \/ (forall t, good_time t -> ns t <> ns u + d)).
Proof.
  intros [He Hn] Hd. unfold go_add. pose proof (Z.quot_rem' d second) as Q. pose proof (Z.rem_bound_abs d second ltac:(unfold second; lia)) as R.
  set (q := Z.quot d second) in *. set (r := Z.rem d second) in *. clearbody q r.
  assert (Rb : - second < r < second) by (unfold second in *; lia). clear R.
  set (p := if second <=? g_nsec u + r then (q + 1, g_nsec u + r - second) else if g_nsec u + r <? 0 then (q - 1, g_nsec u + r + second) else (q, g_nsec u + r)).
  assert (P : p.1 * second + p.2 = d + g_nsec u /\ 0 <= p.2 < second).
  { subst p. destruct (Z.leb_spec second (g_nsec u + r)); [cbn; unfold second in *; lia|]. destruct (Z.ltb_spec (g_nsec u + r) 0); cbn; unfold second in *; lia. }
  destruct p as [ds n]. cbn in P. destruct P as [P1 P2].
  assert (Hds : - 2^62 <= ds <= 2^62) by (unfold is_i64, second in *; lia).
  unfold good_time, ns. cbn [g_ext g_nsec].
  assert (S : is_i64 (add_sec (g_ext u) ds) /\ (add_sec (g_ext u) ds = g_ext u + ds \/ ~ is_i64 (g_ext u + ds) /\ (0 <= add_sec (g_ext u) ds - g_ext u < ds \/ ds < add_sec (g_ext u) ds - g_ext u <= 1))).
  { unfold add_sec. destruct (decide (is_i64 (g_ext u + ds))) as [I|I].
    - rewrite i64_id by exact I. assert (Bool.eqb (g_ext u <? g_ext u + ds) (0 <? ds) = true) as ->.
      { destruct (Z.ltb_spec (g_ext u) (g_ext u + ds)), (Z.ltb_spec 0 ds); try lia; reflexivity. }
      split; [exact I|left; reflexivity].
    - assert (W : 0 < ds /\ i64 (g_ext u + ds) = g_ext u + ds - 2^64 \/ ds < 0 /\ i64 (g_ext u + ds) = g_ext u + ds + 2^64).
      { unfold is_i64 in *. destruct (Z.lt_ge_cases 0 ds); [left|right]; (split; [lia|]); unfold i64.
        - rewrite <- (Z_mod_plus_full _ (-1)). rewrite Z.mod_small; lia.
        - rewrite <- (Z_mod_plus_full _ 1). rewrite Z.mod_small; lia. }
      destruct W as [[Wd ->]|[Wd ->]].
      + destruct (Z.ltb_spec 0 ds); [|lia]. destruct (Z.ltb_spec (g_ext u) (g_ext u + ds - 2^64)); [lia|]. cbn [Bool.eqb].
        unfold is_i64 in *. lia.
      + destruct (Z.ltb_spec 0 ds); [lia|]. destruct (Z.ltb_spec (g_ext u) (g_ext u + ds + 2^64)); [|lia]. cbn [Bool.eqb].
        unfold is_i64 in *. lia. }
  destruct S as [S1 S2]. split; [auto|]. destruct S2 as [-> | [S2 S3]].
  - split; [|left; lia]. replace (_ - _) with d by lia. exact Hd.
  - split; [unfold is_i64, second in *; lia|]. right. intros t [Ht1 Ht2] E. apply S2. unfold is_i64, second in *. lia.
Qed.
Lemma go_sub_clamp t u : good_time t -> good_time u -> go_sub t u = clamp (ns t - ns u).
Proof.
  intros Ht Hu. unfold go_sub.
  set (d := i64 _). assert (Hd : is_i64 d) by apply i64_range.
  assert (Ed : is_i64 (ns t - ns u) -> d = ns t - ns u).
  { intros I. subst d. unfold i64 in *. unfold ns in *. unfold is_i64, second in *.
    transitivity ((g_ext t * 1000000000 + g_nsec t - (g_ext u * 1000000000 + g_nsec u) + 2^63) mod 2^64 - 2^63).
    2:{ rewrite Z.mod_small by lia. lia. }
    assert (M : forall x y, (x - y) mod 2^64 = 0 -> x mod 2^64 = y mod 2^64).
    { intros x y E. apply Z.mod_divide in E as [k E]; [|lia]. replace x with (y + k * 2^64) by lia. apply Z_mod_plus_full. }
    pose proof (Z.div_mod (g_ext t - g_ext u + 2^63) (2^64) ltac:(lia)) as D1.
    set (r1 := (g_ext t - g_ext u + 2^63) mod 2^64) in *. set (k1 := (g_ext t - g_ext u + 2^63) / 2^64) in *. clearbody r1 k1.
    pose proof (Z.div_mod ((r1 - 2^63) * 1000000000 + 2^63) (2^64) ltac:(lia)) as D2.
    set (r2 := ((r1 - 2^63) * 1000000000 + 2^63) mod 2^64) in *. set (k2 := ((r1 - 2^63) * 1000000000 + 2^63) / 2^64) in *. clearbody r2 k2.
    assert (EE : (r2 - 2^63 + (g_nsec t - g_nsec u) + 2^63) mod 2^64 = (g_ext t * 1000000000 + g_nsec t - (g_ext u * 1000000000 + g_nsec u) + 2^63) mod 2^64).
    { apply M. apply Z.mod_divide; [lia|]. exists (- k2 - k1 * 1000000000). lia. }
    rewrite EE. reflexivity. }
  destruct (go_add_ns u d Hu Hd) as (Hg & Hi & Hor).
  destruct (decide (is_i64 (ns t - ns u))) as [I|I].
  - rewrite (Ed I) in *. assert (go_eq (go_add u (ns t - ns u)) t = true) as ->.
    { apply go_eq_ns; [exact Hg|exact Ht|]. destruct Hor as [->|Hor]; [lia|]. exfalso. apply (Hor t Ht). lia. }
    unfold clamp, is_i64 in *. lia.
  - assert (go_eq (go_add u d) t = false) as ->.
    { apply not_true_is_false. intros E. apply go_eq_ns in E; [|exact Hg|exact Ht].
      apply I. rewrite <- E. exact Hi. }
    unfold clamp. destruct (go_before t u) eqn:B.
    + apply go_before_ns in B; [|exact Ht|exact Hu]. unfold is_i64 in I. lia.
    + assert (~ ns t < ns u) by (rewrite <- go_before_ns by assumption; congruence). unfold is_i64 in I. lia.
Qed.
